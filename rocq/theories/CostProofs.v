(** CostProofs.v -- what Q, c, E, f computed by the cost classes are. *)
From Verif Require Import Base Eigen Spec Preview SpecApi AutoSpan Constraints Costs SpecCosts PreviewProofs ConstraintProofs.

(** ** Sums of weighted squares of affine residuals *)

Lemma dot_sq n (t U : nat -> Qc) (w : Qc) :
  sum n (fun i => U i * sum n (fun j => t i * w * t j * U j))%Qc
  = (w * (sum n (fun j => t j * U j) * sum n (fun j => t j * U j)))%Qc.
Proof.
  rewrite (sum_ext n _ (fun i => t i * U i * (w * sum n (fun j => t j * U j)))%Qc).
  - rewrite sum_scal_r. ring.
  - intros i _. rewrite (sum_ext n _ (fun j => t i * w * (t j * U j))%Qc) by (intros; ring).
    rewrite sum_scal_l. ring.
Qed.

Section Form.
Variables (n nx K R : nat) (T H : nat -> nat -> nat -> Qc) (g : nat -> nat -> Qc) (w : nat -> Qc).

Definition formQ (i j : nat) : Qc := sum K (fun k => sum R (fun r => T k r i * w r * T k r j))%Qc.
Definition formE (i j : nat) : Qc := sum K (fun k => sum R (fun r => H k r i * w r * T k r j))%Qc.
Definition formf (j : nat) : Qc := sum K (fun k => sum R (fun r => g k r * w r * T k r j))%Qc.
Definition formc (x : nat -> Qc) (j : nat) : Qc := (sum nx (fun i => formE i j * x i) + formf j)%Qc.

(** the part of the residual that does not depend on U, and the residual *)
Definition form_h (x : nat -> Qc) (k r : nat) : Qc := (sum nx (fun i => H k r i * x i) + g k r)%Qc.
Definition form_res (x U : nat -> Qc) (k r : nat) : Qc := (sum n (fun j => T k r j * U j) + form_h x k r)%Qc.

Lemma sum2_swap m (F : nat -> nat -> nat -> Qc) :
  sum m (fun j => sum K (fun k => sum R (fun r => F k r j)))
  = sum K (fun k => sum R (fun r => sum m (fun j => F k r j))).
Proof.
  rewrite sum_swap. apply sum_ext; intros k _. rewrite sum_swap. reflexivity.
Qed.

Lemma formQ_quad U :
  sum n (fun i => U i * apply n formQ U i)%Qc
  = sum K (fun k => sum R (fun r => w r * (sum n (fun j => T k r j * U j) * sum n (fun j => T k r j * U j))))%Qc.
Proof.
  unfold apply, formQ.
  rewrite (sum_ext n _ (fun i => sum K (fun k => sum R (fun r => U i * sum n (fun j => T k r i * w r * T k r j * U j))))%Qc).
  - rewrite sum2_swap. apply sum_ext; intros k _. apply sum_ext; intros r _. apply dot_sq.
  - intros i _.
    rewrite (sum_ext n _ (fun j => sum K (fun k => sum R (fun r => T k r i * w r * T k r j * U j)))%Qc).
    2:{ intros j _. rewrite <- sum_scal_r. apply sum_ext; intros k _. rewrite <- sum_scal_r. reflexivity. }
    rewrite sum2_swap. rewrite <- sum_scal_l. apply sum_ext; intros k _. rewrite <- sum_scal_l. reflexivity.
Qed.

Lemma formc_lin x U :
  sum n (fun j => formc x j * U j)%Qc
  = sum K (fun k => sum R (fun r => w r * (sum n (fun j => T k r j * U j) * form_h x k r)))%Qc.
Proof.
  rewrite (sum_ext n _ (fun j => sum K (fun k => sum R (fun r => (T k r j * U j) * (w r * form_h x k r))))%Qc).
  - rewrite sum2_swap. apply sum_ext; intros k _. apply sum_ext; intros r _. rewrite sum_scal_r. ring.
  - intros j _. unfold formc, formE, formf.
    rewrite (sum_ext nx _ (fun i => sum K (fun k => sum R (fun r => H k r i * w r * T k r j * x i)))%Qc).
    2:{ intros i _. rewrite <- sum_scal_r. apply sum_ext; intros k _. rewrite <- sum_scal_r. reflexivity. }
    rewrite sum2_swap. rewrite <- sum_add. rewrite <- sum_scal_r. apply sum_ext; intros k _.
    rewrite <- sum_add. rewrite <- sum_scal_r. apply sum_ext; intros r _. unfold form_h.
    rewrite (sum_ext nx _ (fun i => (H k r i * x i) * (w r * T k r j))%Qc) by (intros; ring).
    rewrite sum_scal_r. ring.
Qed.

Lemma form_value x U :
  (objective n formQ (formc x) U + sum K (fun k => wsq R w (form_h x k)))%Qc
  = sum K (fun k => wsq R w (form_res x U k)).
Proof.
  unfold objective. rewrite formQ_quad, formc_lin. rewrite <- sum_scal_l, <- !sum_add.
  apply sum_ext; intros k _. unfold wsq. rewrite <- !sum_scal_l, <- !sum_add. apply sum_ext; intros r _.
  unfold form_res. set (s := sum n _). set (h := form_h x k r).
  assert (E : (half + half = 1)%Qc) by (apply Qc_is_canon; reflexivity).
  transitivity (half * (w r * (s * s)) + (half + half) * (w r * (s * h)) + half * (w r * (h * h)))%Qc; [rewrite E|]; ring.
Qed.

Lemma formQ_sym i j : formQ i j = formQ j i.
Proof. unfold formQ. apply sum_ext; intros k _. apply sum_ext; intros r _. ring. Qed.

Lemma formQ_psd U : (forall r, r < R -> (0 <= w r)%Qc) -> (0 <= sum n (fun i => U i * apply n formQ U i))%Qc.
Proof.
  intro Hw. rewrite formQ_quad. apply sum_nonneg; intros k _. apply sum_nonneg; intros r Hr.
  apply qc_mul_nonneg; [apply Hw; exact Hr|apply qc_sq_nonneg].
Qed.
End Form.

(** ** The residual of each class *)

Definition blkN (ud : nat) (N : mx) (k i j : nat) : Qc := if Nat.eqb (j / ud) k then at_ N i (j mod ud) else 0%Qc.

(** number of residual vectors, their size, and their coefficients *)
Definition kK (ps : psys) (c : cost) : nat :=
  match kk c with
  | TrajectoryCost => if kfull c then 1 else nrXStep ps
  | TargetCost => 1
  | ControlCost | MixedCost => if kfull c then 1 else nrUStep ps
  end.
Definition kR (c : cost) : nat := vsize (kp c).
Definition kT (ps : psys) (c : cost) (k i j : nat) : Qc :=
  match kk c with
  | TrajectoryCost => if kfull c then sum (fullXDim ps) (fun q => at_ (kM c) i q * at_ (psPsi ps) q j)%Qc
                      else sum (xDim ps) (fun q => at_ (kM c) i q * at_ (psPsi ps) (k * xDim ps + q) j)%Qc
  | TargetCost => sum (xDim ps) (fun q => at_ (kM c) i q * at_ (psPsi ps) (nrUStep ps * xDim ps + q) j)%Qc
  | ControlCost => if kfull c then at_ (kN c) i j else blkN (uDim ps) (kN c) k i j
  | MixedCost => if kfull c then (sum (fullXDim ps) (fun q => at_ (kM c) i q * at_ (psPsi ps) q j) + at_ (kN c) i j)%Qc
                 else (sum (xDim ps) (fun q => at_ (kM c) i q * at_ (psPsi ps) (k * xDim ps + q) j)
                       + blkN (uDim ps) (kN c) k i j)%Qc
  end.
Definition kH (ps : psys) (c : cost) (k i j : nat) : Qc :=
  match kk c with
  | TrajectoryCost | MixedCost =>
      if kfull c then sum (fullXDim ps) (fun q => at_ (kM c) i q * at_ (psPhi ps) q j)%Qc
      else sum (xDim ps) (fun q => at_ (kM c) i q * at_ (psPhi ps) (k * xDim ps + q) j)%Qc
  | TargetCost => sum (xDim ps) (fun q => at_ (kM c) i q * at_ (psPhi ps) (nrUStep ps * xDim ps + q) j)%Qc
  | ControlCost => 0%Qc
  end.
Definition kG (ps : psys) (c : cost) (k i : nat) : Qc :=
  match kk c with
  | TrajectoryCost | MixedCost =>
      if kfull c then (sum (fullXDim ps) (fun q => at_ (kM c) i q * vget (psxi ps) q) - vget (kp c) i)%Qc
      else (sum (xDim ps) (fun q => at_ (kM c) i q * vget (psxi ps) (k * xDim ps + q)) - vget (kp c) i)%Qc
  | TargetCost => (sum (xDim ps) (fun q => at_ (kM c) i q * vget (psxi ps) (nrUStep ps * xDim ps + q)) - vget (kp c) i)%Qc
  | ControlCost => (- vget (kp c) i)%Qc
  end.

Definition kQf ps c := formQ (kK ps c) (kR c) (kT ps c) (vget (kw c)).
Definition kEf ps c := formE (kK ps c) (kR c) (kT ps c) (kH ps c) (vget (kw c)).
Definition kff ps c := formf (kK ps c) (kR c) (kT ps c) (kG ps c) (vget (kw c)).

(** classes that add to what they computed before *)
Definition k_acc (c : cost) : bool :=
  match kk c with TrajectoryCost | MixedCost => negb (kfull c) | _ => false end.
Definition k_acc_c (c : cost) : bool :=
  match kk c with MixedCost => negb (kfull c) | _ => false end.

(** ** Shape established by initializeCost and kept by update *)
Definition k_sized (ps : psys) (c : cost) : Prop :=
  rows (kQ c) = fullUDim ps /\ cols (kQ c) = fullUDim ps /\ vsize (kc c) = fullUDim ps /\
  rows (kE c) = xDim ps /\ cols (kE c) = fullUDim ps /\ vsize (kf c) = fullUDim ps.
Definition k_dims (ps : psys) (c : cost) : Prop :=
  match kk c with
  | TrajectoryCost => rows (kM c) = vsize (kp c) /\ cols (kM c) = (if kfull c then fullXDim ps else xDim ps)
  | TargetCost => rows (kM c) = vsize (kp c) /\ cols (kM c) = xDim ps
  | ControlCost => rows (kN c) = vsize (kp c) /\ cols (kN c) = (if kfull c then fullUDim ps else uDim ps)
  | MixedCost => rows (kM c) = vsize (kp c) /\ rows (kN c) = vsize (kp c) /\
      cols (kM c) = (if kfull c then fullXDim ps else xDim ps) /\ cols (kN c) = (if kfull c then fullUDim ps else uDim ps)
  end.
Definition k_shape (ps : psys) (c : cost) : Prop :=
  k_sized ps c /\ vsize (kw c) = vsize (kp c) /\ k_dims ps c /\
  (kk c = ControlCost -> kfull c = false ->
     forall k l i j, k < nrUStep ps -> l < nrUStep ps -> k <> l -> i < uDim ps -> j < uDim ps ->
       at_ (kQ c) (k * uDim ps + i) (l * uDim ps + j) = 0%Qc).

(** same inputs *)
Definition k_same (c c' : cost) : Prop :=
  kk c' = kk c /\ kfull c' = kfull c /\ kM c' = kM c /\ kN c' = kN c /\ kp c' = kp c /\ kw c' = kw c.

(** the result of an update *)
Definition k_result (ps : psys) (c c' : cost) : Prop :=
  (forall i j, i < fullUDim ps -> j < fullUDim ps ->
     at_ (kQ c') i j = ((if k_acc c then at_ (kQ c) i j else 0) + kQf ps c i j)%Qc) /\
  (forall i j, i < xDim ps -> j < fullUDim ps ->
     at_ (kE c') i j = ((if k_acc c then at_ (kE c) i j else 0) + kEf ps c i j)%Qc) /\
  (forall j, j < fullUDim ps ->
     vget (kf c') j = ((if k_acc c then vget (kf c) j else 0) + kff ps c j)%Qc) /\
  (forall j, j < fullUDim ps ->
     vget (kc c') j = ((if k_acc_c c then vget (kc c) j else 0)
                       + (sum (xDim ps) (fun i => at_ (kE c') i j * vget (x0 ps) i) + vget (kf c') j))%Qc).

Lemma twt_ok w t : rows t = vsize w ->
  twt w t = Some (Mx (cols t) (cols t) (fun i j => sum (rows t) (fun r => at_ t r i * vget w r * at_ t r j)%Qc)).
Proof.
  intro H. unfold twt. rewrite mdiag_ok by (cbn; exact H). cbn [obind]. rewrite mmul_ok by reflexivity. reflexivity.
Qed.
Lemma hwt_ok w h t : rows h = vsize w -> rows t = rows h ->
  hwt w h t = Some (Mx (cols h) (cols t) (fun i j => sum (rows h) (fun r => at_ h r i * vget w r * at_ t r j)%Qc)).
Proof.
  intros H1 H2. unfold hwt. rewrite mdiag_ok by (cbn; exact H1). cbn [obind]. rewrite mmul_ok by (cbn; congruence). reflexivity.
Qed.
Lemma gwt_ok w g t : vsize g = vsize w -> rows t = vsize g ->
  gwt w g t = Some (Vec (cols t) (fun j => sum (vsize g) (fun r => vget g r * vget w r * at_ t r j)%Qc)).
Proof.
  intros H1 H2. unfold gwt. rewrite vdiag_ok by (cbn; exact H1). cbn [obind]. rewrite vmmul_ok by (cbn; congruence). reflexivity.
Qed.
Lemma lin_of_ok ps E f : rows E = vsize (x0 ps) -> cols E = vsize f ->
  lin_of ps E f = Some (Vec (cols E) (fun j => sum (rows E) (fun i => at_ E i j * vget (x0 ps) i) + vget f j)%Qc).
Proof.
  intros H1 H2. unfold lin_of. rewrite mvmul_ok by (cbn; exact H1). cbn [obind]. rewrite vadd_ok by (cbn; exact H2). reflexivity.
Qed.

Section Update.
Variables (ps : psys) (R : ready ps).

Let Phr := rd_Phr ps R.
Let Phc := rd_Phc ps R.
Let Psr := rd_Psr ps R.
Let Psc := rd_Psc ps R.
Let xis := rd_xis ps R.
Let x0s := rd_x0 ps R.

Ltac steps :=
  repeat first
    [ rewrite mmul_ok by (cbn [rows cols vsize vopp]; congruence)
    | rewrite mvmul_ok by (cbn [rows cols vsize vopp]; congruence)
    | rewrite madd_ok by (cbn [rows cols vsize vopp]; congruence)
    | rewrite vadd_ok by (cbn [rows cols vsize vopp]; congruence)
    | rewrite vsub_ok by (cbn [rows cols vsize vopp]; congruence)
    | rewrite twt_ok by (cbn [rows cols vsize vopp]; congruence)
    | rewrite hwt_ok by (cbn [rows cols vsize vopp]; congruence)
    | rewrite gwt_ok by (cbn [rows cols vsize vopp]; congruence)
    | rewrite lin_of_ok by (cbn [rows cols vsize vopp]; congruence)
    | progress cbn [obind rows cols at_ vsize vget vopp] ].

Lemma full_result c c' K1 : kK ps c = 1 -> k_acc c = false -> k_acc_c c = false -> K1 = k_result ps c c' ->
  (forall i j, i < fullUDim ps -> j < fullUDim ps ->
     at_ (kQ c') i j = sum (kR c) (fun r => kT ps c 0 r i * vget (kw c) r * kT ps c 0 r j)%Qc) ->
  (forall i j, i < xDim ps -> j < fullUDim ps ->
     at_ (kE c') i j = sum (kR c) (fun r => kH ps c 0 r i * vget (kw c) r * kT ps c 0 r j)%Qc) ->
  (forall j, j < fullUDim ps ->
     vget (kf c') j = sum (kR c) (fun r => kG ps c 0 r * vget (kw c) r * kT ps c 0 r j)%Qc) ->
  (forall j, j < fullUDim ps ->
     vget (kc c') j = (sum (xDim ps) (fun i => at_ (kE c') i j * vget (x0 ps) i) + vget (kf c') j)%Qc) ->
  K1.
Proof.
  intros H1 H2 H3 -> HQ HE Hf Hc. unfold k_result, kQf, kEf, kff, formQ, formE, formf. rewrite H1, H2, H3. cbn [sum].
  repeat split; intros.
  - rewrite HQ by assumption. ring.
  - rewrite HE by assumption. ring.
  - rewrite Hf by assumption. ring.
  - rewrite Hc by assumption. ring.
Qed.

Lemma trajC_full_ok c : kk c = TrajectoryCost -> kfull c = true -> k_shape ps c ->
  exists c', k_update ps c = Some c' /\ k_same c c' /\ k_shape ps c' /\ k_result ps c c'.
Proof using R.
  intros HK HF [Sz [Hw [Hd _]]]. unfold k_dims in Hd. rewrite HK, HF in Hd. destruct Hd as [Hr Hc].
  unfold k_update. rewrite HK. unfold trajC_update. rewrite HF. steps.
  eexists. split; [reflexivity|]. split; [repeat split|]. split.
  - unfold k_shape, k_sized, k_dims. cbn. rewrite HK, HF. repeat split; try assumption; try congruence; try discriminate.
  - eapply full_result; [unfold kK; rewrite HK, HF; reflexivity|unfold k_acc; rewrite HK, HF; reflexivity
      |unfold k_acc_c; rewrite HK; reflexivity|reflexivity| | | |];
      cbn; unfold kR, kT, kH, kG; rewrite ?HK, ?HF; rewrite ?Hr, ?Hc, ?Phc; intros; try reflexivity.
Qed.

Lemma mixedC_full_ok c : kk c = MixedCost -> kfull c = true -> k_shape ps c ->
  exists c', k_update ps c = Some c' /\ k_same c c' /\ k_shape ps c' /\ k_result ps c c'.
Proof using R.
  intros HK HF [Sz [Hw [Hd _]]]. unfold k_dims in Hd. rewrite HK, HF in Hd. destruct Hd as [Hr [Hr2 [Hc Hc2]]].
  unfold k_update. rewrite HK. unfold mixedC_update. rewrite HF. steps.
  eexists. split; [reflexivity|]. split; [repeat split|]. split.
  - unfold k_shape, k_sized, k_dims. cbn. rewrite HK, HF. repeat split; try assumption; try congruence; try discriminate.
  - eapply full_result; [unfold kK; rewrite HK, HF; reflexivity|unfold k_acc; rewrite HK, HF; reflexivity
      |unfold k_acc_c; rewrite HK, HF; reflexivity|reflexivity| | | |];
      cbn; unfold kR, kT, kH, kG; rewrite ?HK, ?HF; rewrite ?Hr, ?Hc, ?Phc; intros; try reflexivity.
Qed.

Lemma targetC_ok c : kk c = TargetCost -> k_shape ps c ->
  exists c', k_update ps c = Some c' /\ k_same c c' /\ k_shape ps c' /\ k_result ps c c'.
Proof using R.
  intros HK [Sz [Hw [Hd _]]]. unfold k_dims in Hd. rewrite HK in Hd. destruct Hd as [Hr Hc].
  assert (Hfx : fullXDim ps = nrUStep ps * xDim ps + xDim ps) by (rewrite (rd_fx ps R), (rd_nx ps R); lia).
  unfold k_update. rewrite HK. unfold targetC_update.
  rewrite bottomRows_ok by lia. steps. rewrite bottomRows_ok by lia. steps.
  rewrite tail_ok by lia. steps.
  eexists. split; [reflexivity|]. split; [repeat split|].
  assert (Ho : fullXDim ps - xDim ps = nrUStep ps * xDim ps) by lia.
  split.
  - unfold k_shape, k_sized, k_dims. cbn. rewrite HK. repeat split; try assumption; try congruence; try discriminate.
  - eapply full_result; [unfold kK; rewrite HK; reflexivity|unfold k_acc; rewrite HK; reflexivity
      |unfold k_acc_c; rewrite HK; reflexivity|reflexivity| | | |];
      cbn; unfold kR, kT, kH, kG; rewrite ?HK; rewrite ?Hr, ?Hc, ?Phc, ?Psr, ?Phr, ?xis, ?Ho; intros; try reflexivity.
Qed.

Lemma ctrlC_full_ok c : kk c = ControlCost -> kfull c = true -> k_shape ps c ->
  exists c', k_update ps c = Some c' /\ k_same c c' /\ k_shape ps c' /\ k_result ps c c'.
Proof using R.
  intros HK HF [[S1 [S2 [S3 [S4 [S5 S6]]]]] [Hw [Hd _]]]. unfold k_dims in Hd. rewrite HK, HF in Hd. destruct Hd as [Hr Hc].
  unfold k_update. rewrite HK. unfold ctrlC_update. rewrite HF. steps.
  eexists. split; [reflexivity|]. split; [repeat split|]. split.
  - unfold k_shape, k_sized, k_dims. cbn. rewrite HK, HF. repeat split; try assumption; try congruence; try discriminate.
  - eapply full_result; [unfold kK; rewrite HK, HF; reflexivity|unfold k_acc; rewrite HK; reflexivity
      |unfold k_acc_c; rewrite HK; reflexivity|reflexivity| | | |];
      cbn; unfold kR, kT, kH, kG; rewrite ?HK, ?HF; rewrite ?Hr, ?Hc, ?Phc; intros; try reflexivity.
    + symmetry. apply sum_zero. intros; ring.
    + rewrite (sum_zero (xDim ps)) by (intros; ring). ring.
Qed.

(** block-diagonal repetition of a control matrix *)
Lemma blk_quad ud K Rw (N : mx) (w : nat -> Qc) k l i j : k < K -> i < ud -> j < ud ->
  sum K (fun q => sum Rw (fun r => blkN ud N q r (k * ud + i) * w r * blkN ud N q r (l * ud + j)))%Qc
  = if Nat.eqb k l then sum Rw (fun r => at_ N r i * w r * at_ N r j)%Qc else 0%Qc.
Proof.
  intros Hk Hi Hj. unfold blkN. rewrite !blk_quot, !blk_rem by assumption.
  destruct (Nat.eqb_spec k l) as [<-|E].
  - rewrite (sum_ext K _ (fun q => if Nat.eqb q k then sum Rw (fun r => at_ N r i * w r * at_ N r j)%Qc else 0%Qc)).
    + apply sum_delta with (f := fun _ => sum Rw (fun r => at_ N r i * w r * at_ N r j)%Qc). exact Hk.
    + intros q _. rewrite (Nat.eqb_sym k q). destruct (Nat.eqb q k); [reflexivity|]. apply sum_zero; intros; ring.
  - apply sum_zero; intros q _. apply sum_zero; intros r _.
    destruct (Nat.eqb_spec k q) as [<-|E1]; [|ring]. destruct (Nat.eqb_spec l k); [congruence|]. ring.
Qed.
Lemma blk_lin ud K Rw (N : mx) (w g : nat -> Qc) l j : l < K -> j < ud ->
  sum K (fun q => sum Rw (fun r => g r * w r * blkN ud N q r (l * ud + j)))%Qc
  = sum Rw (fun r => g r * w r * at_ N r j)%Qc.
Proof.
  intros Hl Hj. unfold blkN. rewrite !blk_quot, !blk_rem by assumption.
  rewrite (sum_ext K _ (fun q => if Nat.eqb q l then sum Rw (fun r => g r * w r * at_ N r j)%Qc else 0%Qc)).
  + apply sum_delta with (f := fun _ => sum Rw (fun r => g r * w r * at_ N r j)%Qc). exact Hl.
  + intros q _. rewrite (Nat.eqb_sym l q). destruct (Nat.eqb q l); [reflexivity|]. apply sum_zero; intros; ring.
Qed.

Lemma in_blk n a k i : i < n -> ((a * n <=? k * n + i) && (k * n + i <? a * n + n)) = Nat.eqb k a.
Proof.
  intro Hi. destruct (Nat.eqb_spec k a) as [->|E].
  - rewrite (proj2 (Nat.leb_le _ _)), (proj2 (Nat.ltb_lt _ _)) by lia. reflexivity.
  - apply andb_false_iff. destruct (Nat.leb_spec (a * n) (k * n + i)); [right|left; reflexivity].
    apply Nat.ltb_ge. nia.
Qed.

Lemma ctrlC_loop mat v Q0 c0 E0 f0 :
  rows mat = uDim ps -> cols mat = uDim ps -> vsize v = uDim ps ->
  rows Q0 = fullUDim ps -> cols Q0 = fullUDim ps -> vsize c0 = fullUDim ps ->
  rows E0 = xDim ps -> cols E0 = fullUDim ps -> vsize f0 = fullUDim ps ->
  exists Q cv E f, for_ 0 (nrUStep ps) (ctrlC_step ps mat v) (Q0, c0, E0, f0) = Some (Q, cv, E, f) /\
    rows Q = fullUDim ps /\ cols Q = fullUDim ps /\ vsize cv = fullUDim ps /\
    rows E = xDim ps /\ cols E = fullUDim ps /\ vsize f = fullUDim ps /\
    forall k i, k < nrUStep ps -> i < uDim ps ->
      (forall l j, l < nrUStep ps -> j < uDim ps ->
         at_ Q (k * uDim ps + i) (l * uDim ps + j) = if Nat.eqb k l then at_ mat i j else at_ Q0 (k * uDim ps + i) (l * uDim ps + j)) /\
      (forall a, a < xDim ps -> at_ E a (k * uDim ps + i) = 0%Qc) /\
      vget f (k * uDim ps + i) = vget v i /\ vget cv (k * uDim ps + i) = vget v i.
Proof using R.
  intros M1 M2 V1 Q1 Q2 C1 E1 E2 F1.
  pose proof (rd_fu ps R) as Fu.
  destruct (for_inv (fun m (s : mx * vec Qc * mx * vec Qc) => let '(Q, cv, E, f) := s in
    rows Q = fullUDim ps /\ cols Q = fullUDim ps /\ vsize cv = fullUDim ps /\
    rows E = xDim ps /\ cols E = fullUDim ps /\ vsize f = fullUDim ps /\
    (forall k i l j, k < nrUStep ps -> i < uDim ps -> l < nrUStep ps -> j < uDim ps ->
         at_ Q (k * uDim ps + i) (l * uDim ps + j) = if (k <? m) && Nat.eqb k l then at_ mat i j else at_ Q0 (k * uDim ps + i) (l * uDim ps + j)) /\
    (forall k i, k < m -> i < uDim ps ->
       (forall a, a < xDim ps -> at_ E a (k * uDim ps + i) = 0%Qc) /\
       vget f (k * uDim ps + i) = vget v i /\ vget cv (k * uDim ps + i) = vget v i))
    0 (nrUStep ps) (ctrlC_step ps mat v) (Q0, c0, E0, f0)) as [[[[Q cv] E] f] [Eq Inv]].
  - lia.
  - repeat (split; [assumption|]). split; [intros; reflexivity|intros; lia].
  - intros m [[[Q cv] E] f] Hm [A1 [A2 [A3 [A4 [A5 [A6 [AQ AF]]]]]]].
    assert (B : m * uDim ps + uDim ps <= fullUDim ps) by nia.
    unfold ctrlC_step. rewrite setBlock_ok by lia. cbn [obind]. rewrite setBlock_ok by (cbn; lia). cbn [obind].
    rewrite setSeg_ok by lia. cbn [obind]. rewrite seg_ok by (cbn; lia). cbn [obind]. rewrite setSeg_ok by (cbn; lia). cbn [obind].
    eexists. split; [reflexivity|]. cbn [rows cols at_ vsize vget].
    repeat (split; [assumption|]). split.
    + intros k i l j Hk Hi Hl Hj. rewrite <- andb_assoc, in_blk by exact Hi. rewrite in_blk by exact Hj.
      destruct (Nat.eqb_spec k m) as [->|Ek].
      * rewrite (proj2 (Nat.ltb_lt m (1 + m))) by lia. cbn [andb]. rewrite (Nat.eqb_sym l m).
        destruct (Nat.eqb_spec m l) as [<-|El]; [f_equal; lia|].
        rewrite AQ by assumption. rewrite (proj2 (Nat.eqb_neq m l) El), andb_false_r. reflexivity.
      * cbn [andb]. rewrite AQ by assumption.
        replace (k <? 1 + m) with (k <? m); [reflexivity|]. destruct (Nat.ltb_spec k m), (Nat.ltb_spec k (1 + m)); lia.
    + intros k i Hk Hi. rewrite in_blk by exact Hi.
      destruct (Nat.eqb_spec k m) as [->|Ek].
      * split; [|split].
        -- intros a Ha. rewrite <- andb_assoc, in_blk by exact Hi. rewrite Nat.eqb_refl.
           rewrite (proj2 (Nat.ltb_lt a (0 + xDim ps))) by lia. cbn. reflexivity.
        -- f_equal. lia.
        -- replace (m * uDim ps + (m * uDim ps + i - m * uDim ps)) with (m * uDim ps + i) by lia.
           rewrite in_blk by exact Hi. rewrite Nat.eqb_refl. f_equal. lia.
      * assert (Hk' : k < m) by lia. destruct (AF k i Hk' Hi) as [G1 [G2 G3]]. split; [|split; assumption].
        intros a Ha. rewrite <- andb_assoc, in_blk by exact Hi. rewrite (proj2 (Nat.eqb_neq k m) Ek), andb_false_r. apply G1; exact Ha.
  - destruct Inv as [A1 [A2 [A3 [A4 [A5 [A6 [AQ AF]]]]]]].
    exists Q, cv, E, f. split; [exact Eq|]. repeat (split; [assumption|]).
    intros k i Hk Hi. destruct (AF k i Hk Hi) as [G1 [G2 G3]]. split; [|repeat split; assumption].
    intros l j Hl Hj. rewrite AQ by assumption. rewrite (proj2 (Nat.ltb_lt k _)) by exact Hk. reflexivity.
Qed.

Lemma fu_split j : j < fullUDim ps -> exists l i, l < nrUStep ps /\ i < uDim ps /\ j = l * uDim ps + i.
Proof using R. intro H. rewrite (rd_fu ps R), Nat.mul_comm in H. apply blk_div' in H. exact H. Qed.

Lemma ctrlC_step_ok c : kk c = ControlCost -> kfull c = false -> k_shape ps c ->
  exists c', k_update ps c = Some c' /\ k_same c c' /\ k_shape ps c' /\ k_result ps c c'.
Proof using R.
  intros HK HF [[S1 [S2 [S3 [S4 [S5 S6]]]]] [Hw [Hd HZ]]]. specialize (HZ HK HF).
  unfold k_dims in Hd. rewrite HK, HF in Hd. destruct Hd as [Hr Hc].
  unfold k_update. rewrite HK. unfold ctrlC_update. rewrite HF.
  rewrite twt_ok by congruence. cbn [obind]. rewrite gwt_ok by (cbn; congruence). cbn [obind].
  match goal with |- context [ctrlC_step ps ?m ?v] =>
    destruct (ctrlC_loop m v (kQ c) (kc c) (kE c) (kf c) Hc Hc Hc S1 S2 S3 S4 S5 S6)
    as [Q [cv [E [f [Eq [T1 [T2 [T3 [T4 [T5 [T6 TT]]]]]]]]]]] end.
  rewrite Eq. cbn [obind]. eexists. split; [reflexivity|]. split; [repeat split|].
  cbn [at_ vsize vget vopp] in TT. split.
  - unfold k_shape, k_sized, k_dims. cbn. rewrite HK, HF. repeat (split; [repeat split; assumption|]).
    intros _ _ k l i j Hk Hl Hkl Hi Hj. rewrite (proj1 (TT k i Hk Hi)) by assumption.
    rewrite (proj2 (Nat.eqb_neq k l) Hkl). apply HZ; assumption.
  - unfold k_result, k_acc, k_acc_c, kQf, kEf, kff, formQ, formE, formf, kK, kR, kT, kH, kG. rewrite HK, HF. cbn [kQ kc kE kf set_qp].
    rewrite <- Hr. split; [|split; [|split]].
    + intros i j Hi Hj. destruct (fu_split i Hi) as [k [a [Hk [Ha ->]]]]. destruct (fu_split j Hj) as [l [b [Hl [Hb ->]]]].
      rewrite (proj1 (TT k a Hk Ha)) by assumption. rewrite blk_quad by assumption.
      destruct (Nat.eqb_spec k l) as [<-|El]; [ring|]. rewrite HZ by assumption. ring.
    + intros i j Hi Hj. destruct (fu_split j Hj) as [l [b [Hl [Hb ->]]]].
      rewrite (proj1 (proj2 (TT l b Hl Hb))) by assumption.
      rewrite (sum_zero (nrUStep ps)); [ring|]. intros. apply sum_zero. intros; ring.
    + intros j Hj. destruct (fu_split j Hj) as [l [b [Hl [Hb ->]]]].
      rewrite (proj1 (proj2 (proj2 (TT l b Hl Hb)))).
      rewrite (blk_lin (uDim ps) (nrUStep ps) (rows (kN c)) (kN c) (vget (kw c)) (fun i => - vget (kp c) i)%Qc) by assumption.
      rewrite Hr. ring.
    + intros j Hj. destruct (fu_split j Hj) as [l [b [Hl [Hb ->]]]]. destruct (TT l b Hl Hb) as [_ [G1 [G2 G3]]].
      rewrite G3, G2. rewrite (sum_zero (xDim ps)); [ring|]. intros a Ha. rewrite G1 by exact Ha. ring.
Qed.

(** accumulation loops of the per-step trajectory and mixed costs *)
Lemma acc_loop N1 (body : nat -> mx * mx * vec Qc -> option (mx * mx * vec Qc)) Rw
    (T H : nat -> nat -> nat -> Qc) (g : nat -> nat -> Qc) (w : nat -> Qc) Q0 E0 f0 :
  rows Q0 = fullUDim ps -> cols Q0 = fullUDim ps -> rows E0 = xDim ps -> cols E0 = fullUDim ps -> vsize f0 = fullUDim ps ->
  (forall k Q E f, k < N1 -> rows Q = fullUDim ps -> cols Q = fullUDim ps -> rows E = xDim ps -> cols E = fullUDim ps ->
     vsize f = fullUDim ps ->
     exists Q' E' f', body k (Q, E, f) = Some (Q', E', f') /\
       rows Q' = fullUDim ps /\ cols Q' = fullUDim ps /\ rows E' = xDim ps /\ cols E' = fullUDim ps /\ vsize f' = fullUDim ps /\
       (forall i j, i < fullUDim ps -> j < fullUDim ps -> at_ Q' i j = (at_ Q i j + sum Rw (fun r => T k r i * w r * T k r j))%Qc) /\
       (forall i j, i < xDim ps -> j < fullUDim ps -> at_ E' i j = (at_ E i j + sum Rw (fun r => H k r i * w r * T k r j))%Qc) /\
       (forall j, j < fullUDim ps -> vget f' j = (vget f j + sum Rw (fun r => g k r * w r * T k r j))%Qc)) ->
  exists Q E f, for_ 0 N1 body (Q0, E0, f0) = Some (Q, E, f) /\
    rows Q = fullUDim ps /\ cols Q = fullUDim ps /\ rows E = xDim ps /\ cols E = fullUDim ps /\ vsize f = fullUDim ps /\
    (forall i j, i < fullUDim ps -> j < fullUDim ps -> at_ Q i j = (at_ Q0 i j + formQ N1 Rw T w i j)%Qc) /\
    (forall i j, i < xDim ps -> j < fullUDim ps -> at_ E i j = (at_ E0 i j + formE N1 Rw T H w i j)%Qc) /\
    (forall j, j < fullUDim ps -> vget f j = (vget f0 j + formf N1 Rw T g w j)%Qc).
Proof using.
  clear R Phr Phc Psr Psc xis x0s. intros A1 A2 A3 A4 A5 B.
  destruct (for_inv (fun m (s : mx * mx * vec Qc) => let '(Q, E, f) := s in
    rows Q = fullUDim ps /\ cols Q = fullUDim ps /\ rows E = xDim ps /\ cols E = fullUDim ps /\ vsize f = fullUDim ps /\
    (forall i j, i < fullUDim ps -> j < fullUDim ps -> at_ Q i j = (at_ Q0 i j + formQ m Rw T w i j)%Qc) /\
    (forall i j, i < xDim ps -> j < fullUDim ps -> at_ E i j = (at_ E0 i j + formE m Rw T H w i j)%Qc) /\
    (forall j, j < fullUDim ps -> vget f j = (vget f0 j + formf m Rw T g w j)%Qc))
    0 N1 body (Q0, E0, f0)) as [[[Q E] f] [Eq Inv]].
  - lia.
  - repeat (split; [assumption|]). unfold formQ, formE, formf. cbn [sum]. repeat split; intros; ring.
  - intros m [[Q E] f] Hm [C1 [C2 [C3 [C4 [C5 [CQ [CE CF]]]]]]].
    destruct (B m Q E f ltac:(lia) C1 C2 C3 C4 C5) as [Q' [E' [f' [Eb [D1 [D2 [D3 [D4 [D5 [DQ [DE DF]]]]]]]]]]].
    exists (Q', E', f'). split; [exact Eb|]. repeat (split; [assumption|]).
    unfold formQ, formE, formf in *. cbn [Nat.add sum]. repeat split; intros.
    + rewrite DQ, CQ by assumption. ring.
    + rewrite DE, CE by assumption. ring.
    + rewrite DF, CF by assumption. ring.
  - exists Q, E, f. split; [exact Eq|exact Inv].
Qed.

Ltac blocks k := rewrite ?(block_ok _ (k * xDim ps) 0) by lia; rewrite ?(seg_ok _ (k * xDim ps)) by lia; cbn [obind].

Lemma trajC_step_ok c : kk c = TrajectoryCost -> kfull c = false -> k_shape ps c ->
  exists c', k_update ps c = Some c' /\ k_same c c' /\ k_shape ps c' /\ k_result ps c c'.
Proof using R.
  intros HK HF [[S1 [S2 [S3 [S4 [S5 S6]]]]] [Hw [Hd _]]].
  unfold k_dims in Hd. rewrite HK, HF in Hd. destruct Hd as [Hr Hc].
  pose proof (rd_fx ps R) as Fx.
  unfold k_update. rewrite HK. unfold trajC_update. rewrite HF.
  destruct (acc_loop (nrXStep ps) (trajC_step ps (kM c) (kp c) (kw c)) (kR c) (kT ps c) (kH ps c) (kG ps c) (vget (kw c))
    (kQ c) (kE c) (kf c) S1 S2 S4 S5 S6) as [Q [E [f [Eq [T1 [T2 [T3 [T4 [T5 [TQ [TE TF]]]]]]]]]]].
  - intros k Q E f Hk B1 B2 B3 B4 B5. assert (Bk : k * xDim ps + xDim ps <= fullXDim ps) by nia.
    unfold trajC_step. blocks k. steps. blocks k. steps. blocks k. steps.
    eexists; eexists; eexists. split; [reflexivity|]. cbn [rows cols at_ vsize vget].
    repeat (split; [congruence|]). unfold kR, kT, kH, kG. rewrite HK, HF. rewrite Hr, Hc.
    split; [|split]; intros; reflexivity.
  - rewrite Eq. cbn [obind]. rewrite lin_of_ok by congruence. cbn [obind].
    eexists. split; [reflexivity|]. split; [repeat split|]. split.
    + unfold k_shape, k_sized, k_dims. cbn. rewrite HK, HF. repeat split; try assumption; try congruence; try discriminate.
    + unfold k_result, k_acc, k_acc_c, kQf, kEf, kff, kK. rewrite HK, HF. cbn [kQ kc kE kf set_qp negb vget].
      split; [exact TQ|]. split; [exact TE|]. split; [exact TF|]. intros j Hj. rewrite T3. ring.
Qed.

Lemma mixed_tmp k (t0 N : mx) rw i j : k < nrUStep ps -> i < rw -> j < fullUDim ps ->
  (if (0 <=? i) && (i <? 0 + rw) && (k * uDim ps <=? j) && (j <? k * uDim ps + uDim ps)
   then (at_ t0 (0 + (i - 0)) (k * uDim ps + (j - k * uDim ps)) + at_ N (i - 0) (j - k * uDim ps))%Qc else at_ t0 i j)
  = (at_ t0 i j + blkN (uDim ps) N k i j)%Qc.
Proof using R.
  intros Hk Hi Hj. destruct (fu_split j Hj) as [l [b [Hl [Hb ->]]]]. unfold blkN. rewrite blk_quot, blk_rem by exact Hb.
  rewrite (proj2 (Nat.ltb_lt i (0 + rw))) by lia. cbn [Nat.leb andb].
  rewrite in_blk by exact Hb. destruct (Nat.eqb_spec l k) as [->|E]; [|ring].
  rewrite Nat.sub_0_r. cbn [Nat.add]. replace (k * uDim ps + b - k * uDim ps) with b by lia. reflexivity.
Qed.

Lemma mixedC_step_ok c : kk c = MixedCost -> kfull c = false -> k_shape ps c ->
  exists c', k_update ps c = Some c' /\ k_same c c' /\ k_shape ps c' /\ k_result ps c c'.
Proof using R.
  intros HK HF [[S1 [S2 [S3 [S4 [S5 S6]]]]] [Hw [Hd _]]].
  unfold k_dims in Hd. rewrite HK, HF in Hd. destruct Hd as [Hr [Hr2 [Hc Hc2]]].
  pose proof (rd_fx ps R) as Fx. pose proof (rd_nx ps R) as Nx. pose proof (rd_fu ps R) as Fu.
  unfold k_update. rewrite HK. unfold mixedC_update. rewrite HF.
  destruct (acc_loop (nrUStep ps) (mixedC_step ps (kM c) (kN c) (kp c) (kw c)) (kR c) (kT ps c) (kH ps c) (kG ps c) (vget (kw c))
    (kQ c) (kE c) (kf c) S1 S2 S4 S5 S6) as [Q [E [f [Eq [T1 [T2 [T3 [T4 [T5 [TQ [TE TF]]]]]]]]]]].
  - intros k Q E f Hk B1 B2 B3 B4 B5.
    assert (Bk : k * xDim ps + xDim ps <= fullXDim ps) by nia. assert (Bu : k * uDim ps + uDim ps <= fullUDim ps) by nia.
    unfold mixedC_step. blocks k. steps. rewrite addBlock_ok by (cbn; lia). cbn [obind rows cols at_].
    blocks k. steps. blocks k. steps.
    eexists; eexists; eexists. split; [reflexivity|]. cbn [rows cols at_ vsize vget].
    repeat (split; [congruence|]). unfold kR, kT, kH, kG. rewrite HK, HF. rewrite Hr, Hc.
    assert (G : forall i j, i < vsize (kp c) -> j < fullUDim ps ->
      (if (0 <=? i) && (i <? 0 + vsize (kp c)) && (k * uDim ps <=? j) && (j <? k * uDim ps + uDim ps)
       then (sum (xDim ps) (fun k0 => at_ (kM c) (0 + (i - 0)) k0 * at_ (psPsi ps) (k * xDim ps + k0) (0 + (k * uDim ps + (j - k * uDim ps))))
             + at_ (kN c) (i - 0) (j - k * uDim ps))%Qc
       else sum (xDim ps) (fun k0 => at_ (kM c) i k0 * at_ (psPsi ps) (k * xDim ps + k0) (0 + j))%Qc)
      = (sum (xDim ps) (fun q => at_ (kM c) i q * at_ (psPsi ps) (k * xDim ps + q) j) + blkN (uDim ps) (kN c) k i j)%Qc).
    { intros i j Hi Hj.
      exact (mixed_tmp k (Mx (vsize (kp c)) (fullUDim ps) (fun i j => sum (xDim ps) (fun k0 => at_ (kM c) i k0 * at_ (psPsi ps) (k * xDim ps + k0) (0 + j))%Qc))
               (kN c) (vsize (kp c)) i j Hk Hi Hj). }
    split; [|split]; intros; f_equal; apply sum_ext; intros r Hrr; rewrite !G by assumption; reflexivity.
  - rewrite Eq. cbn [obind]. rewrite lin_of_ok by congruence. cbn [obind]. rewrite vadd_ok by (cbn; congruence). cbn [obind].
    eexists. split; [reflexivity|]. split; [repeat split|]. split.
    + unfold k_shape, k_sized, k_dims. cbn. rewrite HK, HF. repeat split; try assumption; try congruence; try discriminate.
    + unfold k_result, k_acc, k_acc_c, kQf, kEf, kff, kK. rewrite HK, HF. cbn [kQ kc kE kf set_qp negb vget].
      split; [exact TQ|]. split; [exact TE|]. split; [exact TF|]. intros j Hj. rewrite T3. reflexivity.
Qed.

Lemma k_update_ok c : k_shape ps c ->
  exists c', k_update ps c = Some c' /\ k_same c c' /\ k_shape ps c' /\ k_result ps c c'.
Proof using R.
  intro S. destruct (kk c) eqn:HK; destruct (kfull c) eqn:HF;
    eauto using trajC_full_ok, trajC_step_ok, targetC_ok, ctrlC_full_ok, ctrlC_step_ok, mixedC_full_ok, mixedC_step_ok.
Qed.

(** ** The residuals are those of the documentation *)
Definition k_res (c : cost) (x U : nat -> Qc) : nat -> nat -> Qc :=
  form_res (fullUDim ps) (xDim ps) (kT ps c) (kH ps c) (kG ps c) x U.

Lemma comb_res (e : nat -> Qc) n rho x U b :
  (sum (fullUDim ps) (fun j => sum n (fun q => e q * at_ (psPsi ps) (rho q) j) * U j)
   + (sum (xDim ps) (fun j => sum n (fun q => e q * at_ (psPhi ps) (rho q) j) * x j)
      + (sum n (fun q => e q * vget (psxi ps) (rho q)) - b)))%Qc
  = (sum n (fun q => e q * aff ps x U (rho q)) - b)%Qc.
Proof using. rewrite <- (comb ps n e rho x U). ring. Qed.

Lemma sum_blkN N k i U : k < nrUStep ps ->
  sum (fullUDim ps) (fun j => blkN (uDim ps) N k i j * U j)%Qc = apply (uDim ps) (at_ N) (control_at (uDim ps) U k) i.
Proof using R.
  intro Hk. rewrite (rd_fu ps R), Nat.mul_comm, sum_blocks. unfold apply, control_at.
  rewrite (sum_ext _ _ (fun l => if Nat.eqb l k then sum (uDim ps) (fun j => at_ N i j * U (l * uDim ps + j)%nat)%Qc else 0%Qc)).
  - rewrite sum_delta by exact Hk. reflexivity.
  - intros l _. unfold blkN. destruct (Nat.eqb_spec l k) as [->|E].
    + apply sum_ext; intros j Hj. rewrite blk_quot, blk_rem, Nat.eqb_refl by exact Hj. reflexivity.
    + apply sum_zero; intros j Hj. rewrite blk_quot, blk_rem by exact Hj. rewrite (proj2 (Nat.eqb_neq l k) E). ring.
Qed.

Lemma k_res_step_state (e : nat -> Qc) k x U : k < nrXStep ps ->
  sum (xDim ps) (fun q => e q * aff ps x U (k * xDim ps + q))%Qc = sum (xDim ps) (fun q => e q * state_of ps x U k q)%Qc.
Proof using R. intro Hk. apply sum_ext; intros q Hq. rewrite (aff_state ps R) by assumption. reflexivity. Qed.
Lemma k_res_full_state (e : nat -> Qc) x U :
  sum (fullXDim ps) (fun q => e q * aff ps x U q)%Qc = sum (fullXDim ps) (fun q => e q * stacked_state ps x U q)%Qc.
Proof using R. apply sum_ext; intros q Hq. rewrite (aff_stacked ps R) by assumption. reflexivity. Qed.

Lemma k_res_ok c x U k i : k < kK ps c ->
  k_res c x U k i =
  match kk c with
  | TrajectoryCost => if kfull c then (apply (fullXDim ps) (at_ (kM c)) (stacked_state ps x U) i - vget (kp c) i)%Qc
      else (apply (xDim ps) (at_ (kM c)) (state_of ps x U k) i - vget (kp c) i)%Qc
  | TargetCost => (apply (xDim ps) (at_ (kM c)) (state_of ps x U (nrUStep ps)) i - vget (kp c) i)%Qc
  | ControlCost => if kfull c then (apply (fullUDim ps) (at_ (kN c)) U i - vget (kp c) i)%Qc
      else (apply (uDim ps) (at_ (kN c)) (control_at (uDim ps) U k) i - vget (kp c) i)%Qc
  | MixedCost => if kfull c
      then (apply (fullXDim ps) (at_ (kM c)) (stacked_state ps x U) i + apply (fullUDim ps) (at_ (kN c)) U i - vget (kp c) i)%Qc
      else (apply (xDim ps) (at_ (kM c)) (state_of ps x U k) i + apply (uDim ps) (at_ (kN c)) (control_at (uDim ps) U k) i
            - vget (kp c) i)%Qc
  end.
Proof using R.
  intro Hk. pose proof (rd_nx ps R) as Nx. unfold k_res, form_res, form_h, kT, kH, kG. unfold kK in Hk. destruct (kk c); [destruct (kfull c)| |destruct (kfull c)|destruct (kfull c)].
  - rewrite (comb_res (fun q => at_ (kM c) i q) (fullXDim ps) (fun q => q)). rewrite k_res_full_state. reflexivity.
  - rewrite (comb_res (fun q => at_ (kM c) i q) (xDim ps) (fun q => k * xDim ps + q)). rewrite k_res_step_state by exact Hk. reflexivity.
  - rewrite (comb_res (fun q => at_ (kM c) i q) (xDim ps) (fun q => nrUStep ps * xDim ps + q)). rewrite k_res_step_state by lia. reflexivity.
  - rewrite (sum_zero (xDim ps)) by (intros; ring). unfold apply. ring.
  - rewrite sum_blkN by exact Hk. rewrite (sum_zero (xDim ps)) by (intros; ring). ring.
  - rewrite (sum_ext (fullUDim ps) _ (fun j => sum (fullXDim ps) (fun q => at_ (kM c) i q * at_ (psPsi ps) q j) * U j + at_ (kN c) i j * U j)%Qc) by (intros; ring).
    rewrite sum_add.
    match goal with |- (?a + ?b + ?d)%Qc = _ => transitivity ((a + d) + b)%Qc; [ring|] end.
    rewrite (comb_res (fun q => at_ (kM c) i q) (fullXDim ps) (fun q => q)). rewrite k_res_full_state. unfold apply. ring.
  - rewrite (sum_ext (fullUDim ps) _ (fun j => sum (xDim ps) (fun q => at_ (kM c) i q * at_ (psPsi ps) (k * xDim ps + q)%nat j) * U j + blkN (uDim ps) (kN c) k i j * U j)%Qc) by (intros; ring).
    rewrite sum_add.
    match goal with |- (?a + ?b + ?d)%Qc = _ => transitivity ((a + d) + b)%Qc; [ring|] end.
    rewrite (comb_res (fun q => at_ (kM c) i q) (xDim ps) (fun q => k * xDim ps + q)). rewrite k_res_step_state by lia.
    rewrite sum_blkN by exact Hk. unfold apply. ring.
Qed.
End Update.
