(** SpanMeaning.v -- what a spanned matrix does to a stacked vector (used by C23, C24). *)
From Verif Require Import Base Eigen Spec Preview SpecApi AutoSpan AutoSpanProofs.

Lemma span_part M p w q ac : 1 <= p -> 2 <= q -> step_mx p w M \/ full_mx p w q ac M ->
  exists M', spanMatrix M (Z.of_nat (p * q)) (Z.of_nat ac) = Ok M' /\
    rows M' = p * q /\ cols M' = w * (q + ac) /\
    forall v k i, k < q -> i < p -> apply (w * (q + ac)) (at_ M') v (k * p + i) = part p w q ac M v k i.
Proof.
  intros Hp Hq [[Hr Hc]|[Hr Hc]].
  - destruct (spanMatrix_ok M q ac) as [M' [E [R [C H]]]]; [lia|lia|].
    exists M'. rewrite Hr, Hc in *. rewrite (Nat.mul_comm p q). split; [exact E|]. split; [exact R|].
    split; [exact C|]. intros v k i Hk Hi. unfold part. rewrite Hc, Nat.eqb_refl. unfold apply.
    rewrite (Nat.mul_comm w), sum_blocks.
    rewrite (sum_ext _ _ (fun l => if Nat.eqb l k then sum w (fun j => at_ M i j * v (l * w + j)%nat)%Qc else 0%Qc)).
    + rewrite sum_delta by lia. reflexivity.
    + intros l Hl. destruct (Nat.eqb_spec l k) as [->|El].
      * apply sum_ext; intros j Hj. rewrite H by lia. rewrite Nat.eqb_refl. reflexivity.
      * apply sum_zero. intros j Hj. rewrite H by lia. destruct (Nat.eqb_spec k l); [congruence|]. ring.
  - exists M. rewrite <- Hr. split; [apply spanMatrix_same|]. split; [reflexivity|]. split; [exact Hc|].
    intros v k i Hk Hi. unfold part. destruct (Nat.eqb_spec (cols M) w) as [E|E]; [|reflexivity].
    assert (W0 : w = 0) by nia. rewrite W0. reflexivity.
Qed.

Lemma span_vpart {T} junk (f : vec T) p q : 1 <= p -> 1 <= q -> vsize f = p \/ vsize f = p * q ->
  exists f', spanVector junk f (Z.of_nat (p * q)) = Ok f' /\ vsize f' = p * q /\
    forall k i, k < q -> i < p -> vget f' (k * p + i) = vpart p f k i.
Proof.
  intros Hp Hq [Hs|Hs].
  - destruct (spanVector_mult junk f q Hq) as [f' [E [S H]]]. rewrite Hs in *. rewrite (Nat.mul_comm p q).
    exists f'. split; [exact E|]. split; [exact S|]. intros k i Hk Hi. unfold vpart. rewrite Hs, Nat.eqb_refl.
    apply H; assumption.
  - exists f. rewrite <- Hs. split; [apply spanVector_same|]. split; [reflexivity|].
    intros k i Hk Hi. unfold vpart. destruct (Nat.eqb_spec (vsize f) p) as [E|E]; [|reflexivity].
    assert (q = 1) by nia. assert (k = 0) by lia. subst. reflexivity.
Qed.

Lemma span_same_max a b : Z.of_nat (Nat.max a b) = Z.of_nat (Nat.max b a).
Proof. f_equal. apply Nat.max_comm. Qed.
