(** Convex.v -- sums of quadratic forms, and uniqueness of the minimizer of a strictly convex quadratic program. *)
From Verif Require Import Base Eigen Spec SpecController SpecEndToEnd Controller EndToEndMain EndToEndQP.

Lemma quad_sum k (l : list nat) (e : Qc) (Q : nat -> nat -> Qc) (q : nat -> nat -> nat -> Qc) U :
  (forall i j, i < k -> j < k -> Q i j = ((if Nat.eqb i j then e else 0) + lsum l (fun s => q s i j))%Qc) ->
  sum k (fun i => U i * apply k Q U i)%Qc =
    (e * sum k (fun i => U i * U i) + lsum l (fun s => sum k (fun i => U i * apply k (q s) U i)))%Qc.
Proof.
  intro HQ. pose proof (objective_sum k l e Q (fun _ => lsum l (fun _ => 0%Qc)) q (fun _ _ => 0%Qc) U HQ (fun _ _ => eq_refl)) as H.
  unfold objective in H. rewrite lsum_add, lsum_scal in H.
  assert (Z : lsum l (fun _ => 0%Qc) = 0%Qc) by (clear; induction l; cbn; [reflexivity|rewrite IHl; ring]).
  rewrite Z in H. assert (Z2 : sum k (fun i => 0 * U i)%Qc = 0%Qc) by (apply sum_zero; intros; ring).
  rewrite Z2 in H. rewrite Z in H.
  assert (HH : (half + half = 1)%Qc) by (apply Qc_is_canon; reflexivity).
  set (a := sum k (fun i => U i * apply k Q U i)%Qc) in *. set (b := lsum l _) in *. set (c := sum k (fun i => U i * U i)%Qc) in *.
  assert (X : (half * a = half * (e * c + b))%Qc) by (replace (half * a)%Qc with (half * a + 0)%Qc by ring; rewrite H; ring).
  replace a with ((half + half) * a)%Qc by (rewrite HH; ring). replace (e * c + b)%Qc with ((half + half) * (e * c + b))%Qc by (rewrite HH; ring).
  rewrite !Qcmult_plus_distr_l, X. reflexivity.
Qed.
Lemma lsum_nonneg l f : (forall i, In i l -> (0 <= f i)%Qc) -> (0 <= lsum l f)%Qc.
Proof.
  induction l as [|x t IH]; intro H; cbn; [apply Qcle_refl|].
  assert (A : (0 <= f x)%Qc) by (apply H; left; reflexivity). assert (B : (0 <= lsum t f)%Qc) by (apply IH; intros; apply H; right; assumption). qc_lra.
Qed.

(** ** Midpoints *)
Definition mid (U V : nat -> Qc) (i : nat) : Qc := (half * (U i + V i))%Qc.
Definition quad (k : nat) (Q : nat -> nat -> Qc) (U : nat -> Qc) : Qc := sum k (fun i => U i * apply k Q U i)%Qc.
Lemma half2 : (half + half = 1)%Qc. Proof. apply Qc_is_canon; reflexivity. Qed.
Lemma half_split (a : Qc) : (half * a + half * a = a)%Qc.
Proof. rewrite <- Qcmult_plus_distr_l, half2. ring. Qed.
Lemma apply_mid k M U V i : apply k M (mid U V) i = (half * (apply k M U i + apply k M V i))%Qc.
Proof. unfold apply, mid. rewrite <- sum_add, <- sum_scal_l. apply sum_ext. intros. ring. Qed.
(** parallelogram identity *)
Lemma quad_mid k Q U V : (quad k Q (mid U V) + half * half * quad k Q (fun i => U i - V i) = half * (quad k Q U + quad k Q V))%Qc.
Proof.
  unfold quad. rewrite <- sum_scal_l, <- !sum_add, <- sum_scal_l. apply sum_ext. intros i Hi. rewrite apply_mid. unfold mid.
  assert (S : apply k Q (fun j => U j - V j)%Qc i = (apply k Q U i - apply k Q V i)%Qc).
  { unfold apply. rewrite <- sum_sub. apply sum_ext. intros. ring. }
  rewrite S. set (a := apply k Q U i). set (b := apply k Q V i).
  transitivity (half * ((half + half) * (U i * a + V i * b)))%Qc; [ring|]. rewrite half2. ring.
Qed.
Lemma objective_mid k Q c U V : (objective k Q c (mid U V) + half * (half * half) * quad k Q (fun i => U i - V i)
  = half * (objective k Q c U + objective k Q c V))%Qc.
Proof.
  unfold objective. fold (quad k Q U) (quad k Q V) (quad k Q (mid U V)).
  assert (L : sum k (fun i => c i * mid U V i)%Qc = (half * (sum k (fun i => c i * U i) + sum k (fun i => c i * V i)))%Qc).
  { rewrite <- sum_add, <- sum_scal_l. apply sum_ext. intros. unfold mid. ring. }
  rewrite L. pose proof (quad_mid k Q U V) as P.
  transitivity (half * (quad k Q (mid U V) + half * half * quad k Q (fun i => U i - V i)) + half * (sum k (fun i => c i * U i) + sum k (fun i => c i * V i)))%Qc; [ring|].
  rewrite P. ring.
Qed.
Lemma half_le (a b x : Qc) : (a <= x -> b <= x -> half * (a + b) <= x)%Qc.
Proof. intros H1 H2. pose proof (half_split a). pose proof (half_split b). assert (E : (half = Q2Qc (1 # 2))%Qc) by reflexivity. 
  assert (G : (half * (a + b) + half * (a + b) <= x + x)%Qc) by (replace (half * (a + b) + half * (a + b))%Qc with (a + b)%Qc by (rewrite (half_split (a + b)); reflexivity); qc_lra).
  qc_lra.
Qed.
Lemma le_half (a b x : Qc) : (x <= a -> x <= b -> x <= half * (a + b))%Qc.
Proof. intros H1 H2.
  assert (G : (x + x <= half * (a + b) + half * (a + b))%Qc) by (rewrite half_split; qc_lra). qc_lra.
Qed.
Lemma cmp_mid ineq a b e : cmp ineq a e -> cmp ineq b e -> cmp ineq (half * (a + b))%Qc e.
Proof.
  destruct ineq; cbn.
  - destruct e; cbn; try tauto. apply half_le.
  - unfold q_eq_ext. intros -> E. injection E as ->. f_equal. rewrite Qcmult_plus_distr_r, half_split. reflexivity.
Qed.
Lemma rows_hold_mid ineq r c A b U V : rows_hold ineq r c A b U -> rows_hold ineq r c A b V -> rows_hold ineq r c A b (mid U V).
Proof. intros H1 H2 i Hi. rewrite apply_mid. apply cmp_mid; auto. Qed.
Lemma within_mid n lb ub U V : within_bounds n lb ub U -> within_bounds n lb ub V -> within_bounds n lb ub (mid U V).
Proof.
  intros H1 H2 i Hi. destruct (H1 i Hi) as [A1 A2], (H2 i Hi) as [B1 B2]. unfold mid. split.
  - destruct (lb i); cbn in *; try tauto. apply le_half; assumption.
  - destruct (ub i); cbn in *; try tauto. apply half_le; assumption.
Qed.
Lemma feasible_mid q U V : feasible q U -> feasible q V -> feasible q (mid U V).
Proof. intros [A1 [A2 A3]] [B1 [B2 B3]]. split; [|split]; [apply rows_hold_mid|apply rows_hold_mid|apply within_mid]; assumption. Qed.

(** two minimizers of a strictly convex program coincide *)
Lemma minimizer_unique q U V : pos_def (vsize (qc q)) (at_ (qQ q)) ->
  feasible q U -> feasible q V -> (forall W, feasible q W -> (qp_value q U <= qp_value q W)%Qc) -> (qp_value q V <= qp_value q U)%Qc ->
  forall i, i < vsize (qc q) -> U i = V i.
Proof.
  intros PD FU FV Min Le i Hi. destruct (Qc_eq_dec (U i) (V i)) as [E|Ne]; [exact E|exfalso].
  pose proof (Min _ (feasible_mid q U V FU FV)) as M. unfold qp_value in *.
  pose proof (objective_mid (vsize (qc q)) (at_ (qQ q)) (vget (qc q)) U V) as P.
  assert (Pos : (0 < quad (vsize (qc q)) (at_ (qQ q)) (fun j => U j - V j))%Qc).
  { apply PD. exists i. split; [exact Hi|]. intro Z. apply Ne. replace (U i) with (U i - V i + V i)%Qc by ring. rewrite Z. ring. }
  set (z := quad _ _ _) in *. set (u := objective _ _ _ U) in *. set (v := objective _ _ _ V) in *. set (mm := objective _ _ _ (mid U V)) in *.
  assert (H8 : (half * (half * half) * z + half * (half * half) * z = half * half * z)%Qc) by (rewrite <- Qcmult_plus_distr_l, <- Qcmult_plus_distr_l, half2; ring).
  assert (H4 : (half * half * z + half * half * z = half * z)%Qc) by (rewrite <- !Qcmult_plus_distr_l, half2; ring).
  pose proof (half_split z) as H2. pose proof (half_split (u + v)%Qc) as Hu. qc_lra.
Qed.
