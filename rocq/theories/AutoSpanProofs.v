(** AutoSpanProofs.v *)
From Verif Require Import Base Eigen Spec AutoSpan SpecApi PreviewProofs.

Lemma quot_mul (q : nat) (r : nat) : r <> 0 -> Z.quot (Z.of_nat (q * r)) (Z.of_nat r) = Z.of_nat q.
Proof. intro H. rewrite Nat2Z.inj_mul. apply Z.quot_mul. lia. Qed.

(** [new_dim = q * rows]: success, block diagonal *)
Lemma spanMatrix_ok mat q ac : rows mat <> 0 -> q <> 1 ->
  exists m, spanMatrix mat (Z.of_nat (q * rows mat)) (Z.of_nat ac) = Ok m /\
    rows m = q * rows mat /\ cols m = cols mat * (q + ac) /\
    forall k l i j, k < q -> l < q + ac -> i < rows mat -> j < cols mat ->
      at_ m (k * rows mat + i) (l * cols mat + j) = if Nat.eqb k l then at_ mat i j else 0%Qc.
Proof.
  intros Hr Hq. unfold spanMatrix.
  destruct (Z.eqb_spec (Z.of_nat (q * rows mat)) (Z.of_nat (rows mat))) as [E|_]; [nia|].
  destruct (Nat.eqb_spec (rows mat) 0) as [E|_]; [congruence|].
  rewrite quot_mul by exact Hr.
  rewrite <- Nat2Z.inj_mul, Z.eqb_refl. cbn [negb].
  destruct (Z.ltb_spec (Z.of_nat (q * rows mat)) 0) as [E|_]; [lia|].
  rewrite <- Nat2Z.inj_add, <- Nat2Z.inj_mul.
  destruct (Z.ltb_spec (Z.of_nat (cols mat * (q + ac))) 0) as [E|_]; [lia|].
  cbn [orb]. rewrite !Nat2Z.id.
  destruct (for_inv (fun t m => rows m = q * rows mat /\ cols m = cols mat * (q + ac) /\
     forall k l i j, k < q -> l < q + ac -> i < rows mat -> j < cols mat ->
      at_ m (k * rows mat + i) (l * cols mat + j) = if (k <? t) && Nat.eqb k l then at_ mat i j else 0%Qc)
     0 q (fun i m => setBlock m (i * rows mat) (i * cols mat) (rows mat) (cols mat) mat)
     (mzero (q * rows mat) (cols mat * (q + ac)))) as [m [E [I1 [I2 I3]]]].
  - lia.
  - repeat split. 
  - intros t m Ht [J1 [J2 J3]]. rewrite setBlock_ok by nia.
    eexists. split; [reflexivity|]. cbn [rows cols at_]. repeat split; try assumption.
    intros k l i j Hk Hl Hi Hj. rewrite blk_cond by assumption.
    destruct (Nat.eqb_spec k t) as [->|Ek]; cbn [andb].
    + rewrite (proj2 (Nat.ltb_lt t (1 + t))) by lia. cbn [andb]. rewrite (Nat.eqb_sym t l).
      destruct (Nat.eqb_spec l t) as [->|El].
      * rewrite !blk_sub. reflexivity.
      * rewrite J3 by assumption. rewrite Nat.ltb_irrefl. reflexivity.
    + rewrite J3 by assumption.
      replace (k <? 1 + t) with (k <? t); [reflexivity|].
      bdestruct_all; lia || reflexivity.
  - rewrite E. exists m. cbn [of_opt]. repeat split; try assumption.
    intros k l i j Hk Hl Hi Hj. rewrite I3 by assumption.
    rewrite (proj2 (Nat.ltb_lt k q)) by lia. reflexivity.
Qed.

Lemma spanVector_ok {T} junk (v : vec T) q : vsize v <> 0 -> q <> 1 ->
  exists w, spanVector junk v (Z.of_nat (q * vsize v)) = Ok w /\
    vsize w = q * vsize v /\
    forall k i, k < q -> i < vsize v -> vget w (k * vsize v + i) = vget v i.
Proof.
  intros Hr Hq. unfold spanVector.
  destruct (Z.eqb_spec (Z.of_nat (q * vsize v)) (Z.of_nat (vsize v))) as [E|_]; [nia|].
  destruct (Nat.eqb_spec (vsize v) 0) as [E|_]; [congruence|].
  rewrite quot_mul by exact Hr.
  rewrite <- Nat2Z.inj_mul, Z.eqb_refl. cbn [negb].
  destruct (Z.ltb_spec (Z.of_nat (q * vsize v)) 0) as [E|_]; [lia|].
  rewrite !Nat2Z.id.
  destruct (Nat.eq_dec q 0) as [->|Hq0].
  { rewrite for_nil by lia. eexists. split; [reflexivity|]. cbn. split; [reflexivity|]. intros; lia. }
  destruct (for_inv (fun t w => vsize w = q * vsize v /\
     forall k i, k < t -> i < vsize v -> vget w (k * vsize v + i) = vget v i)
     1 q (fun i w => setSeg w (i * vsize v) (vsize v) v) (vconsResize junk v (q * vsize v)))
   as [w [E [I1 I2]]].
  - lia.
  - split; [reflexivity|]. intros k i Hk Hi. assert (k = 0) by lia. subst. cbn [Nat.mul Nat.add vconsResize vget].
    rewrite (proj2 (Nat.ltb_lt _ _)) by assumption. reflexivity.
  - intros t w Ht [J1 J2]. rewrite setSeg_ok by nia.
    eexists. split; [reflexivity|]. cbn [vsize vget]. split; [assumption|].
    intros k i Hk Hi. rewrite seg_cond by assumption.
    destruct (Nat.eqb_spec k t) as [->|Ek].
    + rewrite blk_sub. reflexivity.
    + apply J2; lia.
  - rewrite E. exists w. cbn [of_opt]. repeat split; assumption.
Qed.

Lemma spanMatrix_same mat ac : spanMatrix mat (Z.of_nat (rows mat)) ac = Ok mat.
Proof. unfold spanMatrix. rewrite Z.eqb_refl. reflexivity. Qed.
Lemma spanVector_same {T} junk (v : vec T) : spanVector junk v (Z.of_nat (vsize v)) = Ok v.
Proof. unfold spanVector. rewrite Z.eqb_refl. reflexivity. Qed.

Lemma spanMatrix_throw mat nd ac : rows mat <> 0 -> nd <> Z.of_nat (rows mat) ->
  ~ (Z.of_nat (rows mat) | nd)%Z -> spanMatrix mat nd ac = Throw DomainError mat.
Proof.
  intros Hr Hn Hd. unfold spanMatrix.
  destruct (Z.eqb_spec nd (Z.of_nat (rows mat))) as [E|_]; [congruence|].
  destruct (Nat.eqb_spec (rows mat) 0) as [E|_]; [congruence|].
  destruct (Z.eqb_spec (Z.quot nd (Z.of_nat (rows mat)) * Z.of_nat (rows mat)) nd) as [E|_]; [|reflexivity].
  exfalso. apply Hd. exists (Z.quot nd (Z.of_nat (rows mat))). symmetry. exact E.
Qed.
Lemma spanVector_throw {T} junk (v : vec T) nd : vsize v <> 0 -> nd <> Z.of_nat (vsize v) ->
  ~ (Z.of_nat (vsize v) | nd)%Z -> spanVector junk v nd = Throw DomainError v.
Proof.
  intros Hr Hn Hd. unfold spanVector.
  destruct (Z.eqb_spec nd (Z.of_nat (vsize v))) as [E|_]; [congruence|].
  destruct (Nat.eqb_spec (vsize v) 0) as [E|_]; [congruence|].
  destruct (Z.eqb_spec (Z.quot nd (Z.of_nat (vsize v)) * Z.of_nat (vsize v)) nd) as [E|_]; [|reflexivity].
  exfalso. apply Hd. exists (Z.quot nd (Z.of_nat (vsize v))). symmetry. exact E.
Qed.
Lemma spanMatrix_empty mat nd ac : rows mat = 0 -> nd <> 0%Z -> spanMatrix mat nd ac = UB.
Proof.
  intros Hr Hn. unfold spanMatrix. rewrite Hr. cbn [Z.of_nat].
  destruct (Z.eqb_spec nd 0) as [E|_]; [congruence|]. reflexivity.
Qed.
Lemma spanVector_empty {T} junk (v : vec T) nd : vsize v = 0 -> nd <> 0%Z -> spanVector junk v nd = UB.
Proof.
  intros Hr Hn. unfold spanVector. rewrite Hr. cbn [Z.of_nat].
  destruct (Z.eqb_spec nd 0) as [E|_]; [congruence|]. reflexivity.
Qed.

(** a multiple [q * r] of the row count, [q >= 1]: always fine *)
Lemma spanMatrix_mult mat q ac : 1 <= q -> rows mat <> 0 ->
  exists m, spanMatrix mat (Z.of_nat (q * rows mat)) (Z.of_nat ac) = Ok m /\ rows m = q * rows mat.
Proof.
  intros Hq Hr. destruct (Nat.eq_dec q 1) as [->|Hq1].
  - exists mat. rewrite Nat.mul_1_l. split; [apply spanMatrix_same|reflexivity].
  - destruct (spanMatrix_ok mat q ac Hr Hq1) as [m [E [R _]]]. exists m. split; assumption.
Qed.
Lemma spanVector_mult {T} junk (v : vec T) q : 1 <= q -> 
  exists w, spanVector junk v (Z.of_nat (q * vsize v)) = Ok w /\ vsize w = q * vsize v /\
    forall k i, k < q -> i < vsize v -> vget w (k * vsize v + i) = vget v i.
Proof.
  intros Hq. destruct (Nat.eq_dec (vsize v) 0) as [Z|Hr].
  { exists v. rewrite Z, Nat.mul_0_r. rewrite <- Z at 1. split; [apply spanVector_same|]. split; [reflexivity|].
    intros; lia. }
  destruct (Nat.eq_dec q 1) as [->|Hq1].
  - exists v. rewrite Nat.mul_1_l. split; [apply spanVector_same|]. split; [reflexivity|].
    intros k i Hk Hi. assert (k = 0) by lia. subst. reflexivity.
  - apply spanVector_ok; assumption.
Qed.
