(** Determined.v -- the problem of a solve is determined by the system and by the data of the registered objects. *)
From Verif Require Import Base Eigen Spec Preview SpecApi PreviewProofs AutoSpan AutoSpanProofs Constraints ConstraintProofs
  SpecConstraints ConstraintMeaning Checkers Costs SpecCosts CostProofs CostMeaning Properties_Costs Controller Registry SpecController Assembly
  Results Properties_Assembly Properties_Results SpecProtocol Protocol Properties_Protocol SpecEndToEnd SpanData Properties_Registry
  EndToEnd EndToEndQP EndToEndRows EndToEndMain.

(** ** An affine function determines its coefficients *)
Lemma affine_inj n k (a a' b b' : nat -> Qc) (c c' : Qc) :
  (forall x U, (sum n (fun j => a j * x j) + sum k (fun j => b j * U j) + c)%Qc = (sum n (fun j => a' j * x j) + sum k (fun j => b' j * U j) + c')%Qc) ->
  c = c' /\ (forall j, j < n -> a j = a' j) /\ (forall j, j < k -> b j = b' j).
Proof.
  intro H.
  assert (Z : forall r (f : nat -> Qc), sum r (fun j => f j * 0)%Qc = 0%Qc) by (intros; apply sum_zero; intros; ring).
  assert (D : forall r (f : nat -> Qc) i, i < r -> sum r (fun j => f j * (if Nat.eqb j i then 1 else 0))%Qc = f i).
  { intros r f i Hi. rewrite (sum_ext r _ (fun j => if Nat.eqb j i then f j else 0)%Qc) by (intros; destruct (Nat.eqb _ _); ring). apply sum_delta. exact Hi. }
  assert (C : c = c'). { pose proof (H (fun _ => 0%Qc) (fun _ => 0%Qc)) as E. rewrite !Z in E. revert E. intro E. replace c with (0 + 0 + c)%Qc by ring. rewrite E. ring. }
  subst c'. split; [reflexivity|]. split; intros j Hj.
  - pose proof (H (fun i => if Nat.eqb i j then 1 else 0)%Qc (fun _ => 0%Qc)) as E. rewrite !Z, !D in E by exact Hj.
    replace (a j) with (a j + 0 + c - c)%Qc by ring. rewrite E. ring.
  - pose proof (H (fun _ => 0%Qc) (fun i => if Nat.eqb i j then 1 else 0)%Qc) as E. rewrite !Z, !D in E by exact Hj.
    replace (b j) with (0 + b j + c - c)%Qc by ring. rewrite E. ring.
Qed.

(** ** Two systems with the same data *)
Definition ps_alike (p q : psys) : Prop :=
  same_dims p q /\ psA p = psA q /\ psB p = psB q /\ psd p = psd q /\ x0 p = x0 q.
Lemma alike_state p q x U k : ps_alike p q -> state_of p x U k = state_of q x U k.
Proof. intros [[X [Y _]] [HA [HB [Hd _]]]]. unfold state_of. rewrite X, Y, HA, HB, Hd. reflexivity. Qed.
Lemma alike_stacked p q x U : ps_alike p q -> stacked_state p x U = stacked_state q x U.
Proof. intro A. unfold stacked_state. rewrite (proj1 (proj1 A)). pose proof (fun k => alike_state p q x U k A) as S. 
  assert (E : state_of p x U = state_of q x U).
  { destruct A as [[X [Y _]] [HA [HB [Hd _]]]]. unfold state_of. rewrite X, Y, HA, HB, Hd. reflexivity. }
  rewrite E. reflexivity.
Qed.
Lemma alike_preview p q : ready p -> ready q -> ps_alike p q ->
  (forall r j, r < fullXDim p -> j < xDim p -> at_ (psPhi p) r j = at_ (psPhi q) r j) /\
  (forall r j, r < fullXDim p -> j < fullUDim p -> at_ (psPsi p) r j = at_ (psPsi q) r j) /\
  (forall r, r < fullXDim p -> vget (psxi p) r = vget (psxi q) r).
Proof.
  intros Rp Rq A. destruct (rd_pv p Rp) as [_ [_ [_ [_ [_ P]]]]]. destruct (rd_pv q Rq) as [_ [_ [_ [_ [_ Q]]]]].
  pose proof A as [SD [HA [HB [Hd _]]]]. destruct SD as [X [Y [Nu [Nx [FX FU]]]]].
  assert (G : forall r, r < fullXDim p -> vget (psxi p) r = vget (psxi q) r /\
     (forall j, j < xDim p -> at_ (psPhi p) r j = at_ (psPhi q) r j) /\ (forall j, j < fullUDim p -> at_ (psPsi p) r j = at_ (psPsi q) r j)).
  { intros r Hr. rewrite (rd_fx p Rp), (rd_nx p Rp) in Hr. assert (Hx : 0 < xDim p) by (destruct (xDim p); lia).
    pose proof (Nat.div_mod r (xDim p) ltac:(lia)) as E. pose proof (Nat.mod_upper_bound r (xDim p) ltac:(lia)) as M.
    assert (K : r / xDim p <= nrUStep p) by (assert (r / xDim p < nrUStep p + 1) by (apply Nat.div_lt_upper_bound; lia); lia).
    set (k := r / xDim p) in *. set (i := r mod xDim p) in *. replace r with (k * xDim p + i) by lia.
    rewrite (rd_fu p Rp). apply affine_inj. intros x U. rewrite (P x U k i K M).
    rewrite X, Y, Nu in *. rewrite (Q x U k i) by lia. rewrite HA, HB, Hd. reflexivity. }
  split; [|split]; intros; apply G; assumption.
Qed.

(** ** Constraints with the same data *)
Definition c_alike (c d : constr) : Prop :=
  ck c = ck d /\ (ck c <> KCtrlB -> isIneq c = isIneq d) /\ nrConstr c = nrConstr d /\ fullSizeEntry c = fullSizeEntry d /\
  con_alike (c_given c) (c_given d) /\ (ck c = KTrajB -> lowerLines c = lowerLines d /\ upperLines c = upperLines d).
Lemma apply_meq n M M' x r : meq M M' -> cols M = n -> r < rows M -> apply n (at_ M) x r = apply n (at_ M') x r.
Proof. intros [_ [_ E]] C Hr. unfold apply. apply sum_ext. intros j Hj. rewrite E by lia. reflexivity. Qed.
Lemma alike_lin p q c d r x U : ps_alike p q -> c_alike c d -> c_shape p c -> ck c <> KCtrlB -> r < nrConstr c -> c_lin p c r x U = c_lin q d r x U.
Proof.
  intros A [K [_ [_ [F [G L]]]]] Sh NB Hr. pose proof A as [SD [HA [HB [Hd _]]]]. destruct SD as [X [Y [Nu [Nx [FX FU]]]]].
  assert (MZ : forall a b, r < a * b -> a <> 0) by (intros a b H; destruct a; [inversion H|discriminate]).
  unfold c_lin, c_given, tb_steps, tb_src, c_shape in *. rewrite <- K, <- F in *. rewrite (alike_stacked p q x U A), <- X, <- Y, <- FX, <- FU.
  destruct (ck c).
  - destruct Sh as [_ [_ Sh]]. destruct G as [G1 [G2 G3]]. destruct (fullSizeEntry c); destruct Sh as [S1 S2].
    + apply apply_meq; [exact G1|exact S1|lia].
    + rewrite (alike_state p q x U _ A), <- (proj1 G1). apply apply_meq; [exact G1|exact S1|]. apply Nat.mod_upper_bound. eapply MZ. rewrite <- S2. exact Hr.
  - destruct (fullSizeEntry c); destruct G as [G1 [G2 G3]].
    + destruct Sh as [[Z1 [Z2 _]] _]. apply apply_meq; [exact G1|exact Z2|lia].
    + destruct Sh as [_ [_ [_ [S1 [S2 _]]]]]. rewrite <- (proj1 G1). apply apply_meq; [exact G1|exact S1|]. apply Nat.mod_upper_bound. eapply MZ. rewrite <- S2. exact Hr.
  - destruct Sh as [_ [V1 [V2 Sh]]]. destruct G as [G1 [G2 [G3 G4]]]. destruct (fullSizeEntry c).
    + destruct Sh as [S1 [S2 S3]]. rewrite (apply_meq _ _ _ _ r G1 S1) by lia. rewrite (apply_meq _ _ _ _ r G2 S2) by lia. reflexivity.
    + destruct Sh as [S1 [S2 [S3 _]]]. rewrite (alike_state p q x U _ A), <- (proj1 G1).
      assert (B : r mod rows (cE c) < rows (cE c)) by (apply Nat.mod_upper_bound; eapply MZ; rewrite <- S3; exact Hr).
      rewrite (apply_meq _ _ _ _ _ G1 S1 B), (apply_meq _ _ _ _ (r mod rows (cE c)) G2 S2) by lia. reflexivity.
  - destruct (L eq_refl) as [L1 L2]. rewrite L1, L2, Nx. reflexivity.
  - congruence.
Qed.
Lemma alike_rhs p q c d r : ps_alike p q -> c_alike c d -> c_shape p c -> ck c <> KCtrlB -> r < nrConstr c -> c_rhs p c r = c_rhs q d r.
Proof.
  intros A [K [_ [_ [F [G L]]]]] Sh NB Hr. pose proof A as [SD _]. destruct SD as [X [Y [Nu [Nx [FX FU]]]]].
  assert (MZ : forall a b, r < a * b -> a <> 0) by (intros a b H; destruct a; [inversion H|discriminate]).
  unfold c_rhs, c_given, tb_steps, c_shape in *. rewrite <- K, <- F in *.
  destruct (ck c).
  - destruct Sh as [_ [V Sh]]. destruct G as [G1 [G2 G3]]. destruct (fullSizeEntry c); destruct Sh as [S1 S2].
    + apply G2. lia.
    + rewrite <- (proj1 G1). apply G2. rewrite <- V. apply Nat.mod_upper_bound. eapply MZ. rewrite <- S2. exact Hr.
  - destruct (fullSizeEntry c); destruct G as [G1 [G2 G3]].
    + destruct Sh as [[_ [_ [Z _]]] _]. apply G2. lia.
    + destruct Sh as [_ [_ [V [S1 [S2 _]]]]]. rewrite <- (proj1 G1). apply G2. rewrite <- V. apply Nat.mod_upper_bound. eapply MZ. rewrite <- S2. exact Hr.
  - destruct Sh as [_ [V1 [V2 Sh]]]. destruct G as [G1 [G2 [G3 G4]]]. destruct (fullSizeEntry c).
    + apply G3. lia.
    + destruct Sh as [S1 [S2 [S3 _]]]. rewrite <- (proj1 G1). apply G3. rewrite <- V1. apply Nat.mod_upper_bound. eapply MZ. rewrite <- S3. exact Hr.
  - destruct (L eq_refl) as [L1 L2]. destruct G as [G1 G2]. destruct Sh as [_ [_ [F1 [F2 Sh]]]]. rewrite <- L1, <- L2, <- Nx.
    rewrite Forall_forall in F1, F2.
    assert (NT : nrConstr c = (length (lowerLines c) + length (upperLines c)) * (if fullSizeEntry c then 1 else nrXStep p)) by (destruct (fullSizeEntry c); destruct Sh as [_ ->]; lia).
    set (t := if fullSizeEntry c then 1 else nrXStep p) in *.
    destruct (Nat.ltb_spec r (length (lowerLines c) * t)) as [Lt|Ge].
    + apply G1. apply F1. apply nth_In. apply Nat.mod_upper_bound. eapply MZ. exact Lt.
    + apply G2. apply F2. apply nth_In. apply Nat.mod_upper_bound. intro Z. rewrite Z in NT. lia.
  - congruence.
Qed.
Lemma ext_sub_inj e a b : e = Fin a -> ext_sub e b = Fin (a - b)%Qc.
Proof. intros ->. reflexivity. Qed.
Lemma alike_rows p q c d c' d' r : ps_alike p q -> c_alike c d -> rows_as p c c' -> rows_as q d d' -> c_shape p c -> ck c <> KCtrlB -> r < nrConstr c ->
  (forall j, j < fullUDim p -> at_ (cA c') r j = at_ (cA d') r j) /\ (forall j, j < xDim p -> at_ (cY c') r j = at_ (cY d') r j) /\
  vget (cb c') r = vget (cb d') r /\ vget (cz c') r = vget (cz d') r.
Proof.
  intros A C [R1 _] [R2 _] Sh NB Hr. destruct (R1 NB r Hr) as [k1 [Z1 [B1 E1]]].
  destruct C as [K [Q [Nr C]]]. destruct (R2 ltac:(congruence) r ltac:(lia)) as [k2 [Z2 [B2 E2]]].
  pose proof A as [SD [_ [_ [_ X0]]]]. destruct SD as [X [Y [Nu [Nx [FX FU]]]]].
  assert (C' : c_alike c d) by (unfold c_alike; tauto).
  destruct (affine_inj (xDim p) (fullUDim p) (at_ (cY c') r) (at_ (cY d') r) (at_ (cA c') r) (at_ (cA d') r) k1 k2) as [-> [HY HA]].
  { intros x U. rewrite E1, (alike_lin p q c d r x U A C' Sh NB Hr), <- E2, X, FU. reflexivity. }
  split; [exact HA|]. split; [exact HY|].
  assert (Z : vget (cz c') r = vget (cz d') r) by (rewrite Z1, Z2, (alike_rhs p q c d r A C' Sh NB Hr); reflexivity).
  split; [|exact Z]. rewrite B1, B2, Z, X0, <- X. f_equal. apply sum_ext. intros j Hj. rewrite HY by exact Hj. reflexivity.
Qed.
Lemma alike_bounds p q c d c' d' i : ready p -> ps_alike p q -> c_alike c d -> rows_as p c c' -> rows_as q d d' -> c_shape p c -> ck c = KCtrlB -> i < fullUDim p ->
  vget (clb c') i = vget (clb d') i /\ vget (cub c') i = vget (cub d') i.
Proof.
  intros Rp A C [_ R1] [_ R2] Sh Q Hi. destruct C as [K [_ [_ [F [G _]]]]]. pose proof A as [SD _]. destruct SD as [X [Y [Nu [Nx [FX FU]]]]].
  destruct (R1 Q i Hi) as [-> ->]. destruct (R2 ltac:(congruence) i ltac:(lia)) as [-> ->].
  unfold cb_lo, cb_up, c_given in *. rewrite <- K, Q, <- F in G. rewrite <- F, <- Y. unfold c_shape in Sh. rewrite Q in Sh.
  destruct Sh as [_ [Nr [V1 [V2 Sh]]]]. assert (MU : fullSizeEntry c = false -> i mod uDim p < uDim p).
  { intro Ff. apply Nat.mod_upper_bound. intro Z. pose proof (rd_fu p Rp) as FF. rewrite FF in Hi. rewrite Z in Hi. lia. }
  destruct (fullSizeEntry c); destruct G as [G1 G2]; (split; [apply G1|apply G2]); try lia; rewrite ?(proj1 Sh), ?(proj2 Sh); auto.
Qed.
Lemma same_obj_alike c d : same_obj c d -> c_alike c d.
Proof.
  intros [[D1 [D2 [D3 [D4 [D5 [D6 [D7 [D8 [D9 [D10 [D11 D12]]]]]]]]]]] S].
  assert (G : c_given c = c_given d).
  { unfold c_given. rewrite D1, D2, D4, D6, D7, D8, D9, D10.
    destruct (fullSizeEntry c) eqn:F; [|reflexivity]. destruct (ck c) eqn:K; try reflexivity; rewrite S by auto; reflexivity. }
  unfold c_alike. rewrite <- G, D1, D2, D3, D4, D11, D12. repeat split. apply con_alike_refl.
Qed.
Ltac fin := repeat split; try assumption; try (intros; assumption); try discriminate; intros; try discriminate; try congruence.
Lemma finite_lower_veq v v' : veq v v' -> finite_lower_lines v = finite_lower_lines v'.
Proof. intros [S E]. unfold finite_lower_lines. rewrite <- S. apply filter_ext_in. intros i Hi. apply in_seq in Hi. rewrite E by lia. reflexivity. Qed.
Lemma finite_upper_veq v v' : veq v v' -> finite_upper_lines v = finite_upper_lines v'.
Proof. intros [S E]. unfold finite_upper_lines. rewrite <- S. apply filter_ext_in. intros i Hi. apply in_seq in Hi. rewrite E by lia. reflexivity. Qed.
(** objects built with the same data, registered with the same system *)
Lemma given_alike D c d : c_inited D c -> c_inited D d -> lines_fresh c -> lines_fresh d -> con_alike (c_given c) (c_given d) -> c_alike c d.
Proof.
  intros [S1 [E1 _]] [S2 [E2 _]] L1 L2 G.
  assert (K : ck c = ck d) by (unfold c_given in G; destruct (ck c), (ck d); destruct (fullSizeEntry c), (fullSizeEntry d); reflexivity || destruct G).
  unfold c_shape, c_entry, lines_fresh, sized in *. unfold c_alike. pose proof G as G0. unfold c_given in G0. rewrite <- K in *.
  split; [reflexivity|]. destruct (ck c) eqn:Q.
  - destruct G0 as [[R [C _]] [G2 G3]]. assert (F : fullSizeEntry c = fullSizeEntry d) by (rewrite E1, E2, C; reflexivity). rewrite <- F in *.
    destruct S1 as [_ [_ S1]], S2 as [_ [_ S2]].
    assert (NR : nrConstr c = nrConstr d) by (destruct (fullSizeEntry c); rewrite R in S1; destruct S1 as [_ ->], S2 as [_ ->]; reflexivity).
    fin.
  - assert (F : fullSizeEntry c = fullSizeEntry d).
    { destruct S1 as [SZ1 [_ S1]], S2 as [SZ2 [_ S2]].
      destruct (fullSizeEntry c) eqn:Fc, (fullSizeEntry d) eqn:Fd; try reflexivity; destruct G0 as [[R [C _]] [G2 G3]]; exfalso.
      - apply (E1 eq_refl). destruct S2 as [_ [<- _]]. rewrite <- C. apply SZ1.
      - apply (E2 eq_refl). destruct S1 as [_ [<- _]]. rewrite C. apply SZ2. }
    rewrite <- F in *. destruct S1 as [SZ1 [_ S1]], S2 as [SZ2 [_ S2]].
    assert (H : isIneq c = isIneq d /\ nrConstr c = nrConstr d).
    { destruct (fullSizeEntry c) eqn:Fc; destruct G0 as [[R [C _]] [G2 G3]]; (split; [exact G3|]).
      - destruct SZ1 as [<- _], SZ2 as [<- _]. exact R.
      - destruct S1 as [_ [_ [-> _]]], S2 as [_ [_ [-> _]]]. rewrite R. reflexivity. }
    destruct H. fin.
  - destruct G0 as [[R [C _]] [[R' [C' _]] [G3 G4]]]. assert (F : fullSizeEntry c = fullSizeEntry d) by (rewrite E1, E2, C, C'; reflexivity). rewrite <- F in *.
    destruct S1 as [_ [_ [_ S1]]], S2 as [_ [_ [_ S2]]].
    assert (NR : nrConstr c = nrConstr d) by (destruct (fullSizeEntry c); rewrite R in S1; destruct S1 as [_ [_ S1]], S2 as [_ [_ S2]]; intuition congruence).
    fin.
  - destruct G0 as [G1 G2]. destruct (L1 eq_refl) as [I1 [LL1 UL1]], (L2 eq_refl) as [I2 [LL2 UL2]].
    assert (F : fullSizeEntry c = fullSizeEntry d) by (rewrite E1, E2, (proj1 G1); reflexivity). rewrite <- F in *.
    assert (A1 : lowerLines c = lowerLines d) by (rewrite LL1, LL2; apply finite_lower_veq; exact G1).
    assert (A2 : upperLines c = upperLines d) by (rewrite UL1, UL2; apply finite_upper_veq; exact G2).
    destruct S1 as [_ [_ [_ [_ S1]]]], S2 as [_ [_ [_ [_ S2]]]].
    assert (NR : nrConstr c = nrConstr d) by (destruct (fullSizeEntry c); destruct S1 as [_ ->], S2 as [_ ->]; rewrite A1, A2; reflexivity).
    fin.
  - destruct S1 as [_ [NR1 [V1 [V1' S1]]]], S2 as [_ [NR2 [V2 [V2' S2]]]].
    assert (F : fullSizeEntry c = fullSizeEntry d).
    { destruct (fullSizeEntry c) eqn:Fc, (fullSizeEntry d) eqn:Fd; try reflexivity; destruct G0 as [[R _] _]; exfalso.
      - apply (E1 eq_refl). destruct S2 as [<- _]. rewrite <- R. exact V1.
      - apply (E2 eq_refl). destruct S1 as [<- _]. rewrite R. exact V2. }
    fin.
Qed.

(** ** Costs with the same data *)
Definition k_alike (c d : cost) : Prop := kk c = kk d /\ (kk c <> TargetCost -> kfull c = kfull d) /\ cost_alike (k_given c) (k_given d) /\ veq (kw c) (kw d).
Lemma form_ext_T K R (T T' H H' : nat -> nat -> nat -> Qc) (g g' : nat -> nat -> Qc) (w w' : nat -> Qc) (n nx : nat) :
  (forall k r j, k < K -> r < R -> j < n -> T k r j = T' k r j) -> (forall k r i, k < K -> r < R -> i < nx -> H k r i = H' k r i) ->
  (forall k r, k < K -> r < R -> g k r = g' k r) -> (forall r, r < R -> w r = w' r) ->
  (forall i j, i < n -> j < n -> formQ K R T w i j = formQ K R T' w' i j) /\
  (forall i j, i < nx -> j < n -> formE K R T H w i j = formE K R T' H' w' i j) /\
  (forall j, j < n -> formf K R T g w j = formf K R T' g' w' j).
Proof.
  intros HT HH Hg Hw. split; [|split]; intros; unfold formQ, formE, formf; apply sum_ext; intros k Hk; apply sum_ext; intros r Hr.
  - rewrite !HT, Hw by assumption. reflexivity.
  - rewrite HT, HH, Hw by assumption. reflexivity.
  - rewrite HT, Hg, Hw by assumption. reflexivity.
Qed.
Lemma alike_forms p q c d : ready p -> ready q -> ps_alike p q -> k_alike c d -> k_shape p c ->
  (forall i j, i < fullUDim p -> j < fullUDim p -> kQf p c i j = kQf q d i j) /\
  (forall i j, i < xDim p -> j < fullUDim p -> kEf p c i j = kEf q d i j) /\
  (forall j, j < fullUDim p -> kff p c j = kff q d j).
Proof.
  intros Rp Rq A [K [F [G [W1 W2]]]] Sh. destruct (alike_preview p q Rp Rq A) as [P1 [P2 P3]].
  pose proof A as [SD _]. destruct SD as [X [Y [Nu [Nx [FX FU]]]]].
  assert (KP : veq (kp c) (kp d)) by (unfold k_given in G; rewrite <- K in G; destruct (kk c); apply G).
  assert (KK : kK p c = kK q d) by (unfold kK; rewrite <- K, Nu, Nx; destruct (kk c); try rewrite (F ltac:(discriminate)); reflexivity).
  assert (KRR : kR c = kR d) by (unfold kR; apply KP).
  unfold kQf, kEf, kff. rewrite <- KK, <- KRR.
  assert (WS : vsize (kw c) = kR c) by apply Sh.
  assert (RX : forall k q0, k < nrXStep p -> q0 < xDim p -> k * xDim p + q0 < fullXDim p) by (intros; rewrite (rd_fx p Rp); nia).
  pose proof (rd_nx p Rp) as NX. pose proof (rd_fu p Rp) as FP.
  destruct Sh as [_ [_ [Dm _]]]. unfold k_dims in Dm.
  assert (BN : forall M M' k i j, meq M M' -> cols M = uDim p -> i < rows M -> j < fullUDim p -> blkN (uDim p) M k i j = blkN (uDim p) M' k i j).
  { intros M M' k i j [_ [_ E]] C Hi Hj. unfold blkN. destruct (Nat.eqb _ _); [|reflexivity]. apply E; [exact Hi|]. rewrite C. apply Nat.mod_upper_bound. intro Z. rewrite Z in FP. lia. }
  assert (P2' : forall k q0 j, k < nrXStep p -> q0 < xDim p -> j < fullUDim p -> at_ (psPsi p) (k * xDim p + q0) j = at_ (psPsi q) (k * xDim p + q0) j)
    by (intros; apply P2; auto).
  assert (P1' : forall k q0 j, k < nrXStep p -> q0 < xDim p -> j < xDim p -> at_ (psPhi p) (k * xDim p + q0) j = at_ (psPhi q) (k * xDim p + q0) j)
    by (intros; apply P1; auto).
  assert (P3' : forall k q0, k < nrXStep p -> q0 < xDim p -> vget (psxi p) (k * xDim p + q0) = vget (psxi q) (k * xDim p + q0))
    by (intros; apply P3; auto).
  apply form_ext_T.
  - intros k r j Hk Hr Hj. unfold kT, kK, kR, k_given in *. rewrite <- K in *. rewrite <- X, <- Y, <- Nu, <- FX.
    destruct (kk c); try rewrite <- (F ltac:(discriminate)) in *.
    + destruct G as [[_ [_ G1]] G2]. destruct Dm as [D1 D2]. destruct (kfull c); apply sum_ext; intros i Hi.
      * rewrite G1, P2 by lia. reflexivity.
      * rewrite G1, P2' by lia. reflexivity.
    + destruct G as [[_ [_ G1]] G2]. destruct Dm as [D1 D2]. apply sum_ext; intros i Hi. rewrite G1, P2' by lia. reflexivity.
    + destruct G as [G1 G2]. destruct Dm as [D1 D2]. destruct (kfull c); [apply G1; lia|apply BN; [exact G1|exact D2|lia|exact Hj]].
    + destruct G as [[_ [_ G1]] [G2 G3]]. destruct Dm as [D1 [D2 [D3 D4]]]. destruct (kfull c); f_equal.
      * apply sum_ext; intros i Hi. rewrite G1, P2 by lia. reflexivity.
      * apply G2; lia.
      * apply sum_ext; intros i Hi. rewrite G1, P2' by lia. reflexivity.
      * apply BN; [exact G2|exact D4|lia|exact Hj].
  - intros k r j Hk Hr Hj. unfold kH, kK, kR, k_given in *. rewrite <- K in *. rewrite <- X, <- Nu, <- FX.
    destruct (kk c); try rewrite <- (F ltac:(discriminate)) in *; [| |reflexivity|].
    + destruct G as [[_ [_ G1]] G2]. destruct Dm as [D1 D2]. destruct (kfull c); apply sum_ext; intros i Hi.
      * rewrite G1, P1 by lia. reflexivity.
      * rewrite G1, P1' by lia. reflexivity.
    + destruct G as [[_ [_ G1]] G2]. destruct Dm as [D1 D2]. apply sum_ext; intros i Hi. rewrite G1, P1' by lia. reflexivity.
    + destruct G as [[_ [_ G1]] [G2 G3]]. destruct Dm as [D1 [D2 [D3 D4]]]. destruct (kfull c); apply sum_ext; intros i Hi.
      * rewrite G1, P1 by lia. reflexivity.
      * rewrite G1, P1' by lia. reflexivity.
  - intros k r Hk Hr. unfold kG, kK, kR, k_given in *. rewrite <- K in *. rewrite <- X, <- Nu, <- FX, <- (proj2 KP r Hr).
    destruct (kk c); try rewrite <- (F ltac:(discriminate)) in *; [| |reflexivity|].
    + destruct G as [[_ [_ G1]] G2]. destruct Dm as [D1 D2]. destruct (kfull c); f_equal; apply sum_ext; intros i Hi.
      * rewrite G1, P3 by lia. reflexivity.
      * rewrite G1, P3' by lia. reflexivity.
    + destruct G as [[_ [_ G1]] G2]. destruct Dm as [D1 D2]. f_equal; apply sum_ext; intros i Hi. rewrite G1, P3' by lia. reflexivity.
    + destruct G as [[_ [_ G1]] [G2 G3]]. destruct Dm as [D1 [D2 [D3 D4]]]. destruct (kfull c); f_equal; apply sum_ext; intros i Hi.
      * rewrite G1, P3 by lia. reflexivity.
      * rewrite G1, P3' by lia. reflexivity.
  - intros r Hr. apply W2. lia.
Qed.
Lemma alike_exact p q c d : ready p -> ready q -> ps_alike p q -> k_alike c d -> k_shape p c -> k_exact p c -> k_exact q d ->
  (forall i j, i < fullUDim p -> j < fullUDim p -> at_ (kQ c) i j = at_ (kQ d) i j) /\ (forall j, j < fullUDim p -> vget (kc c) j = vget (kc d) j) /\
  (forall i j, i < xDim p -> j < fullUDim p -> at_ (kE c) i j = at_ (kE d) i j) /\ (forall j, j < fullUDim p -> vget (kf c) j = vget (kf d) j).
Proof.
  intros Rp Rq A C Sh [Q1 [E1 [F1 C1]]] [Q2 [E2 [F2 C2]]]. destruct (alike_forms p q c d Rp Rq A C Sh) as [HQ [HE Hf]].
  pose proof A as [SD [_ [_ [_ X0]]]]. destruct SD as [X [Y [Nu [Nx [FX FU]]]]]. split; [|split; [|split]].
  - intros i j Hi Hj. rewrite Q1, Q2 by lia. apply HQ; assumption.
  - intros j Hj. rewrite C1, C2, F1, F2 by lia. rewrite Hf by exact Hj. f_equal. rewrite X0, <- X. apply sum_ext. intros i Hi.
    rewrite E1, E2 by lia. rewrite HE by assumption. reflexivity.
  - intros i j Hi Hj. rewrite E1, E2 by lia. apply HE; assumption.
  - intros j Hj. rewrite F1, F2 by lia. apply Hf; exact Hj.
Qed.

(** ** One solve in a history of the protocol *)
Record solved (n m N : nat) (h : list op) (w : world) (p : nat) (e : senv) (b : bool) (w' : world) : Prop := {
  sd_SF : sizes_fit n m N; sd_FP : follows_protocol n m N world0 h; sd_RE : reached h w; sd_HO : honest world0 h;
  sd_Ep : m_ps (ctl w) = Some p; sd_So : solve e w = Some (b, w') }.

Section One.
Variables (n m N : nat) (h : list op) (w : world) (p : nat) (e : senv) (b : bool) (w' : world).
Hypothesis S : solved n m N h w p e b w'.
Let D := dps n m N.
Lemma sd_pinv : pinv D w.
Proof using S. destruct S. eapply sv_pinv; eassumption. Qed.
Lemma sd_ps : ready (wps w' p) /\ same_dims (wps w' p) D /\ same_dims (wps w' p) (wps w p) /\ x0 (wps w' p) = x0 (wps w p) /\
  psA (wps w' p) = psA (wps w p) /\ psB (wps w' p) = psB (wps w p) /\ psd (wps w' p) = psd (wps w p) /\
  update_cons (wps w' p) (spC (ctl w)) (wcon w) = Some (wcon w') /\ update_costs (wps w' p) (spCost (ctl w)) (wcost w) = Some (wcost w').
Proof using S. destruct S. eapply sv_ps; eassumption. Qed.
Lemma sd_rows i : In i (spC (ctl w)) -> c_inited D (wcon w i) /\ rows_as (wps w' p) (wcon w i) (wcon w' i) /\ nrConstr (wcon w' i) = nrConstr (wcon w i).
Proof using S.
  intros Hi. pose proof sd_pinv as P. destruct sd_ps as [R [SD [_ [_ [_ [_ [_ [Ec _]]]]]]]].
  split; [apply (pi_rcon _ _ P); exact Hi|].
  split; [|apply (update_cons_nr _ _ _ _ Ec)].
  eapply update_cons_rows; [apply (sd_SF _ _ _ _ _ _ _ _ _ S)|exact R|exact SD|exact Ec| |exact Hi]. intros k Hk. apply (pi_rcon _ _ P k Hk).
Qed.
(** costs that start from zero (or do not accumulate) are computed exactly *)
Lemma sd_exact i : In i (spCost (ctl w)) -> (k_acc (wcost w i) = true -> k_zero D (wcost w i) /\ cnt i (spCost (ctl w)) = 1) ->
  k_exact (wps w' p) (wcost w' i).
Proof using S.
  intros Hi A. pose proof sd_pinv as P. destruct sd_ps as [R [SD [_ [_ [_ [_ [_ [_ Ek]]]]]]]].
  eapply update_costs_exact; [apply (sd_SF _ _ _ _ _ _ _ _ _ S)|exact R|exact SD|exact Ek|apply (pi_rcost _ _ P)|exact Hi|exact A].
Qed.
Lemma sd_live : ps_live D (wps w' p) /\ isUpdated (wps w' p) = true.
Proof using S.
  pose proof sd_pinv as P. destruct (pi_m _ _ P p (sd_Ep _ _ _ _ _ _ _ _ _ S)) as [Np _]. destruct (ensure_live D _ (pi_ps _ _ P p Np)) as [ps' [Eu' [Lp [_ Up]]]].
  assert (EP : ps' = wps w' p).
  { destruct (solve_objs _ _ _ _ (sd_So _ _ _ _ _ _ _ _ _ S)) as [p' [ps [wc [wk [Ep' [Eu [_ [_ [Hw _]]]]]]]]].
    rewrite (sd_Ep _ _ _ _ _ _ _ _ _ S) in Ep'. injection Ep' as <-. rewrite Eu in Eu'. injection Eu' as <-.
    rewrite Hw. unfold upd. rewrite Nat.eqb_refl. reflexivity. }
  subst ps'. split; assumption.
Qed.
Lemma sd_kshape i : In i (spCost (ctl w)) -> k_same (wcost w i) (wcost w' i) /\ k_shape (wps w' p) (wcost w' i) /\ k_entry (wps w' p) (wcost w' i).
Proof using S.
  intro Hi. pose proof sd_pinv as P. destruct sd_ps as [R [SD [_ [_ [_ [_ [_ [_ Ek]]]]]]]]. destruct sd_live as [Lp Up].
  split; [apply (update_costs_same n m N _ Lp Up _ _ _ Ek (pi_rcost _ _ P) i)|].
  destruct (update_costs_ok D _ Lp Up _ _ (pi_rcost _ _ P)) as [wk' [Ek' [KI' _]]]. rewrite Ek in Ek'. injection Ek' as <-.
  destruct (KI' i (pi_rcost _ _ P i Hi)) as [Sh' En']. assert (SD' : same_dims D (wps w' p)) by (apply same_dims_sym; exact SD).
  split; [apply (k_shape_dims _ _ _ SD' Sh')|apply (k_entry_dims _ _ _ SD' En')].
Qed.
Lemma sd_same i : same_obj (wcon w i) (wcon w' i).
Proof using S.
  pose proof sd_pinv as P. destruct sd_ps as [R [SD [_ [_ [_ [_ [_ [Ec _]]]]]]]]. destruct sd_live as [Lp Up].
  eapply update_cons_same; [apply (sd_SF _ _ _ _ _ _ _ _ _ S)|exact Lp|exact Up|exact Ec|apply (pi_rcon _ _ P)].
Qed.
Lemma sd_sizes : m_is (ctl w) = None -> qp_sized (fullUDim (wps w' p)) (m_qp (ctl w')) /\ qp_sized (fullUDim (wps w' p)) (m_qp (ctl w)).
Proof using S. destruct S. intro. eapply sv_sizes; eassumption. Qed.
End One.

(** ** Two solves with the same data give the same problem *)
Lemma stacked_same nr row rhs n l A b nr' row' rhs' A' b' :
  stacked nr row rhs n l A b -> stacked nr' row' rhs' n l A' b' ->
  (forall i, In i l -> nr i = nr' i) ->
  (forall i r, In i l -> r < nr i -> (forall j, j < n -> row i r j = row' i r j) /\ rhs i r = rhs' i r) ->
  meq A A' /\ veq b b'.
Proof.
  intros [R1 [C1 [V1 H1]]] [R2 [C2 [V2 H2]]] En Er.
  assert (RO : forall l0, (forall i, In i l0 -> In i l) -> rows_of nr l0 = rows_of nr' l0).
  { intros l0 Hl. apply rows_of_ext. intros i Hi. apply En. apply Hl. exact Hi. }
  pose proof (RO l (fun i H => H)) as RL.
  assert (G : forall k, k < rows_of nr l -> (forall j, j < n -> at_ A k j = at_ A' k j) /\ vget b k = vget b' k).
  { intros k Hk. destruct (find_row nr l k Hk) as [l1 [i [l2 [r [El [Hr ->]]]]]].
    assert (Hi : In i l) by (rewrite El; apply in_or_app; right; left; reflexivity).
    destruct (H1 l1 i l2 El r Hr) as [A1 B1]. destruct (H2 l1 i l2 El r ltac:(rewrite <- En; assumption)) as [A2 B2].
    destruct (Er i r Hi Hr) as [E1 E2]. rewrite <- (RO l1) in A2, B2 by (intros z Hz; rewrite El; apply in_or_app; left; exact Hz).
    split; [|congruence]. intros j Hj. rewrite A1, A2 by exact Hj. apply E1. exact Hj. }
  split; [split; [congruence|split; [congruence|]]|split; [congruence|]].
  - intros i j Hi Hj. apply G; lia.
  - intros i Hi. apply G. lia.
Qed.
Lemma of_type_alike wc wd t l : (forall i, In i l -> constraintType (wc i) = constraintType (wd i)) -> of_type wc t l = of_type wd t l.
Proof.
  unfold of_type. induction l as [|x r IH]; intro H; cbn; [reflexivity|].
  rewrite IH by (intros; apply H; right; assumption).
  assert (E : has_type t (wc x) = has_type t (wd x)) by (unfold has_type; rewrite (H x (or_introl eq_refl)); reflexivity). rewrite E. reflexivity.
Qed.
Lemma alike_type c d : c_alike c d -> constraintType c = constraintType d.
Proof.
  intros [K [I _]]. unfold constraintType. rewrite <- K. destruct (ck c) eqn:Q; try (rewrite I by discriminate; reflexivity); reflexivity.
Qed.

Section Two.
Variables (n m N : nat) (h1 h2 : list op) (w1 w2 : world) (p1 p2 : nat) (e1 e2 : senv) (b1 b2 : bool) (v1 v2 : world).
Hypotheses (S1 : solved n m N h1 w1 p1 e1 b1 v1) (S2 : solved n m N h2 w2 p2 e2 b2 v2).
Hypothesis PA : ps_alike (wps w1 p1) (wps w2 p2).
Hypotheses (LC : spC (ctl w1) = spC (ctl w2)) (AC : forall i, In i (spC (ctl w1)) -> c_alike (wcon w1 i) (wcon w2 i)).
Hypotheses (LK : spCost (ctl w1) = spCost (ctl w2)) (AK : forall i, In i (spCost (ctl w1)) -> k_alike (wcost w1 i) (wcost w2 i)).
Hypothesis ZK : forall i, In i (spCost (ctl w1)) -> k_acc (wcost w1 i) = true ->
  k_zero (dps n m N) (wcost w1 i) /\ k_zero (dps n m N) (wcost w2 i) /\ cnt i (spCost (ctl w1)) = 1.

Lemma two_ps : ps_alike (wps v1 p1) (wps v2 p2).
Proof using S1 S2 PA.
  destruct (sd_ps _ _ _ _ _ _ _ _ _ S1) as [R1 [D1 [D1' [X1 [A1 [B1 [d1 _]]]]]]].
  destruct (sd_ps _ _ _ _ _ _ _ _ _ S2) as [R2 [D2 [D2' [X2 [A2 [B2 [d2 _]]]]]]].
  destruct PA as [_ [PA1 [PA2 [PA3 PA4]]]]. split; [eapply same_dims_trans; [exact D1|apply same_dims_sym; exact D2]|]. repeat split; congruence.
Qed.
Lemma two_lists : spEq (ctl w1) = spEq (ctl w2) /\ spIneq (ctl w1) = spIneq (ctl w2) /\ spB (ctl w1) = spB (ctl w2).
Proof using S1 S2 LC AC.
  pose proof (pi_reg _ _ (sd_pinv _ _ _ _ _ _ _ _ _ S1)) as I1. pose proof (pi_reg _ _ (sd_pinv _ _ _ _ _ _ _ _ _ S2)) as I2.
  rewrite (ri_eq _ I1), (ri_eq _ I2), (ri_ineq _ I1), (ri_ineq _ I2), (ri_b _ I1), (ri_b _ I2), <- LC.
  repeat split; apply of_type_alike; intros i Hi; apply alike_type, AC, Hi.
Qed.
Lemma two_con i : In i (spC (ctl w1)) -> nrConstr (wcon v1 i) = nrConstr (wcon v2 i) /\
  (ck (wcon w1 i) <> KCtrlB -> forall r, r < nrConstr (wcon v1 i) ->
    (forall j, j < fullUDim (wps v1 p1) -> at_ (cA (wcon v1 i)) r j = at_ (cA (wcon v2 i)) r j) /\
    (forall j, j < xDim (wps v1 p1) -> at_ (cY (wcon v1 i)) r j = at_ (cY (wcon v2 i)) r j) /\
    vget (cb (wcon v1 i)) r = vget (cb (wcon v2 i)) r /\ vget (cz (wcon v1 i)) r = vget (cz (wcon v2 i)) r) /\
  (ck (wcon w1 i) = KCtrlB -> forall r, r < fullUDim (wps v1 p1) ->
    vget (clb (wcon v1 i)) r = vget (clb (wcon v2 i)) r /\ vget (cub (wcon v1 i)) r = vget (cub (wcon v2 i)) r).
Proof using S1 S2 PA LC AC.
  intro Hi. destruct (sd_rows _ _ _ _ _ _ _ _ _ S1 i Hi) as [I1 [R1 N1]]. pose proof Hi as Hi2. rewrite LC in Hi2.
  destruct (sd_rows _ _ _ _ _ _ _ _ _ S2 i Hi2) as [_ [R2 N2]]. pose proof (AC i Hi) as C. pose proof two_ps as P.
  destruct (sd_ps _ _ _ _ _ _ _ _ _ S1) as [RR [SD1 _]].
  assert (Sh1 : c_shape (wps v1 p1) (wcon w1 i)) by (apply (c_shape_dims (dps n m N) (wps v1 p1)); [apply same_dims_sym; exact SD1|apply I1]).
  split; [rewrite N1, N2; apply C|]. split.
  - intros Q r Hr. rewrite N1 in Hr. apply (alike_rows _ _ _ _ _ _ r P C R1 R2 Sh1 Q Hr).
  - intros Q r Hr. apply (alike_bounds _ _ _ _ _ _ r RR P C R1 R2 Sh1 Q Hr).
Qed.
Lemma two_cost i : In i (spCost (ctl w1)) ->
  (forall a j, a < fullUDim (wps v1 p1) -> j < fullUDim (wps v1 p1) -> at_ (kQ (wcost v1 i)) a j = at_ (kQ (wcost v2 i)) a j) /\
  (forall j, j < fullUDim (wps v1 p1) -> vget (kc (wcost v1 i)) j = vget (kc (wcost v2 i)) j) /\
  (forall a j, a < xDim (wps v1 p1) -> j < fullUDim (wps v1 p1) -> at_ (kE (wcost v1 i)) a j = at_ (kE (wcost v2 i)) a j) /\
  (forall j, j < fullUDim (wps v1 p1) -> vget (kf (wcost v1 i)) j = vget (kf (wcost v2 i)) j).
Proof using S1 S2 PA LK AK ZK.
  intro Hi. pose proof Hi as Hi2. rewrite LK in Hi2. pose proof (AK i Hi) as [K [F [G W]]].
  destruct (sd_kshape _ _ _ _ _ _ _ _ _ S1 i Hi) as [[M1 [M2 [M3 [M4 [M5 M6]]]]] [Sh1 _]].
  destruct (sd_kshape _ _ _ _ _ _ _ _ _ S2 i Hi2) as [[M1' [M2' [M3' [M4' [M5' M6']]]]] [Sh2 _]].
  assert (KA : k_acc (wcost w2 i) = k_acc (wcost w1 i)) by (unfold k_acc; rewrite <- K; destruct (kk (wcost w1 i)); try rewrite (F ltac:(discriminate)); reflexivity).
  apply (alike_exact (wps v1 p1) (wps v2 p2)).
  - apply (sd_ps _ _ _ _ _ _ _ _ _ S1).
  - apply (sd_ps _ _ _ _ _ _ _ _ _ S2).
  - apply two_ps.
  - split; [congruence|]. split; [intro T; rewrite M2, M2'; apply F; congruence|]. split; [|rewrite M6, M6'; exact W].
    rewrite (k_given_eq (wcost w1 i) (wcost v1 i)), (k_given_eq (wcost w2 i) (wcost v2 i)) by assumption. exact G.
  - exact Sh1.
  - apply (sd_exact _ _ _ _ _ _ _ _ _ S1 i Hi). intro A. destruct (ZK i Hi A) as [Z1 [_ Z3]]. auto.
  - apply (sd_exact _ _ _ _ _ _ _ _ _ S2 i Hi2). rewrite KA, <- LK. intro A. destruct (ZK i Hi A) as [_ [Z2 Z3]]. auto.
Qed.

Lemma two_solves : m_is (ctl w1) = None -> m_is (ctl w2) = None ->
  (spB (ctl w1) <> [] \/ veq (qlb (m_qp (ctl w1))) (qlb (m_qp (ctl w2))) /\ veq (qub (m_qp (ctl w1))) (qub (m_qp (ctl w2)))) ->
  qp_same (m_qp (ctl v1)) (m_qp (ctl v2)).
Proof using S1 S2 PA LC AC LK AK ZK.
  intros I1 I2 BB. pose proof S1 as [_ _ RE1 _ Ep1 So1]. pose proof S2 as [_ _ RE2 _ Ep2 So2].
  destruct (sd_sizes _ _ _ _ _ _ _ _ _ S1 I1) as [[Z1 [Z2 [Z3 [Z4 Z5]]]] [Y1 [Y2 [Y3 [Y4 Y5]]]]].
  destruct (sd_sizes _ _ _ _ _ _ _ _ _ S2 I2) as [[Z1' [Z2' [Z3' [Z4' Z5']]]] [Y1' [Y2' [Y3' [Y4' Y5']]]]].
  destruct (C28_assembly h1 w1 p1 e1 b1 v1 RE1 Ep1 I1 So1) as [_ [_ [_ [_ [_ [_ [HQ [Hc [SE [SI [B0 B1]]]]]]]]]]]. cbv zeta in HQ, Hc, SE, SI, B0, B1.
  destruct (C28_assembly h2 w2 p2 e2 b2 v2 RE2 Ep2 I2 So2) as [_ [_ [_ [_ [_ [_ [HQ' [Hc' [SE' [SI' [B0' B1']]]]]]]]]]]. cbv zeta in HQ', Hc', SE', SI', B0', B1'.
  pose proof two_ps as [SDP _]. assert (FU : fullUDim (wps v1 p1) = fullUDim (wps v2 p2)) by apply SDP.
  destruct two_lists as [L1 [L2 L3]]. rewrite <- L1, <- FU in SE'. rewrite <- L2, <- FU in SI'. rewrite <- L3 in B0', B1'. rewrite <- LK in HQ', Hc'.
  assert (IN : forall i, In i (spEq (ctl w1)) \/ In i (spIneq (ctl w1)) -> In i (spC (ctl w1)) /\ ck (wcon w1 i) <> KCtrlB).
  { pose proof (pi_reg _ _ (sd_pinv _ _ _ _ _ _ _ _ _ S1)) as RI. intros i Hi. rewrite (ri_eq _ RI), (ri_ineq _ RI) in Hi.
    rewrite !in_of_type in Hi. unfold has_type, constraintType in Hi. split; [tauto|]. intro Q. rewrite Q in Hi. destruct Hi as [[_ Hi]|[_ Hi]]; discriminate Hi. }
  assert (IB : forall i, In i (spB (ctl w1)) -> In i (spC (ctl w1)) /\ ck (wcon w1 i) = KCtrlB).
  { pose proof (pi_reg _ _ (sd_pinv _ _ _ _ _ _ _ _ _ S1)) as RI. intros i Hi. rewrite (ri_b _ RI) in Hi.
    rewrite !in_of_type in Hi. unfold has_type, constraintType in Hi. split; [tauto|]. destruct (ck (wcon w1 i)); destruct (isIneq (wcon w1 i)); destruct Hi as [_ Hi]; reflexivity || discriminate Hi. }
  assert (GE : meq (qAeq (m_qp (ctl v1))) (qAeq (m_qp (ctl v2))) /\ veq (qbeq (m_qp (ctl v1))) (qbeq (m_qp (ctl v2)))).
  { eapply stacked_same; [exact SE|exact SE'| |].
    - intros i Hi. destruct (IN i (or_introl Hi)) as [H1 _]. apply (two_con i H1).
    - intros i r Hi Hr. destruct (IN i (or_introl Hi)) as [H1 H2]. destruct (two_con i H1) as [_ [T _]]. specialize (T H2 r Hr). tauto. }
  assert (GI : meq (qAineq (m_qp (ctl v1))) (qAineq (m_qp (ctl v2))) /\ veq (qbineq (m_qp (ctl v1))) (qbineq (m_qp (ctl v2)))).
  { eapply stacked_same; [exact SI|exact SI'| |].
    - intros i Hi. destruct (IN i (or_intror Hi)) as [H1 _]. apply (two_con i H1).
    - intros i r Hi Hr. destruct (IN i (or_intror Hi)) as [H1 H2]. destruct (two_con i H1) as [_ [T _]]. specialize (T H2 r Hr). tauto. }
  split; [split; [exact (eq_trans Z1 (eq_trans FU (eq_sym Z1')))|split; [exact (eq_trans Z2 (eq_trans FU (eq_sym Z2')))|]]|].
  { intros i j Hi Hj. rewrite HQ, HQ'. f_equal. apply lsum_ext. intros k Hk. rewrite Z1 in Hi. rewrite Z2 in Hj. apply (two_cost k Hk); assumption. }
  split; [split; [exact (eq_trans Z3 (eq_trans FU (eq_sym Z3')))|]|].
  { intros i Hi. rewrite Hc, Hc'. apply lsum_ext. intros k Hk. apply (two_cost k Hk). lia. }
  split; [apply GE|]. split; [apply GE|]. split; [apply GI|]. split; [apply GI|].
  pose proof (pi_b _ _ (sd_pinv _ _ _ _ _ _ _ _ _ S1)) as LB.
  destruct (spB (ctl w1)) as [|i [|i' t]] eqn:Eb; [| |cbn in LB; lia].
  - destruct (B0 eq_refl) as [-> ->]. destruct (B0' eq_refl) as [-> ->]. destruct BB as [BB|BB]; [congruence|exact BB].
  - destruct (IB i (or_introl eq_refl)) as [Hi Q]. destruct (two_con i Hi) as [Nr [_ T]]. specialize (T Q).
    assert (NF : nrConstr (wcon v1 i) = fullUDim (wps v1 p1)).
    { destruct (sd_rows _ _ _ _ _ _ _ _ _ S1 i Hi) as [[Sh _] [_ ->]]. unfold c_shape in Sh. rewrite Q in Sh. destruct Sh as [_ [-> _]].
      destruct (sd_ps _ _ _ _ _ _ _ _ _ S1) as [_ [SD _]]. symmetry. apply SD. }
    destruct (B1 i eq_refl) as [[V1 V2] [V3 V4]]; [lia|lia|].
    destruct (B1' i eq_refl) as [[V1' V2'] [V3' V4']]; [lia|lia|].
    split; (split; [lia|]); intros r Hr; first [rewrite V2, V2' by lia|rewrite V4, V4' by lia]; apply T; lia.
Qed.
End Two.
