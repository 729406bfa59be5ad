(** FloatProofs.v -- accumulation of rounding errors: [near u k r x m] says that [r] is [x] up to [k] roundings of terms of
    total size [m]. *)
From Coq Require Import Permutation Qcabs.
From Verif Require Import Base Eigen Spec Preview SpecApi PreviewProofs Floats SpecFloats.
Open Scope Qc_scope.

Definition near (u : Qc) (k : nat) (r x m : Qc) : Prop := Qcabs x <= m /\ Qcabs (r - x) <= growth u k * m.

(** ** Powers *)
Lemma qc_mul_le_r (a b c : Qc) : a <= b -> 0 <= c -> a * c <= b * c.
Proof. intros H C. apply Qcmult_le_compat_r; assumption. Qed.
Lemma qc_mul_le_l (a b c : Qc) : a <= b -> 0 <= c -> c * a <= c * b.
Proof. intros H C. rewrite !(Qcmult_comm c). apply Qcmult_le_compat_r; assumption. Qed.
Lemma qc_mul_le (a b c d : Qc) : 0 <= a -> a <= b -> 0 <= c -> c <= d -> a * c <= b * d.
Proof.
  intros A B C D. apply Qcle_trans with (b * c); [apply qc_mul_le_r; assumption|].
  apply qc_mul_le_l; [assumption|]. exact (Qcle_trans _ _ _ A B).
Qed.
Lemma pow_S u k : Qcpower (1 + u) (S k) = (1 + u) * Qcpower (1 + u) k.
Proof. reflexivity. Qed.
Lemma pow_ge1 u k : 0 <= u -> 1 <= Qcpower (1 + u) k.
Proof.
  intro H. induction k as [|k IH]; [apply Qcle_refl|]. rewrite pow_S.
  revert IH. generalize (Qcpower (1 + u) k) as p. intros p IH.
  assert (G : 0 <= u * p) by (apply qc_mul_nonneg; [exact H|qc_lra]).
  replace ((1 + u) * p) with (p + u * p) by ring. revert G. generalize (u * p). qc_lra.
Qed.
Lemma pow_add u a b : Qcpower (1 + u) (a + b) = Qcpower (1 + u) a * Qcpower (1 + u) b.
Proof. induction a as [|a IH]; cbn [Nat.add]; [cbn [Qcpower]; ring|]. rewrite !pow_S, IH. ring. Qed.
Lemma growth_nonneg u k : 0 <= u -> 0 <= growth u k.
Proof. intro H. unfold growth. pose proof (pow_ge1 u k H) as P. revert P. generalize (Qcpower (1 + u) k). qc_lra. Qed.
Lemma growth_mono u a b : 0 <= u -> (a <= b)%nat -> growth u a <= growth u b.
Proof.
  intros H L. unfold growth. replace b with ((b - a) + a)%nat by lia. rewrite pow_add.
  pose proof (pow_ge1 u (b - a) H) as P. pose proof (pow_ge1 u a H) as Pa. revert P Pa.
  generalize (Qcpower (1 + u) (b - a)) as p, (Qcpower (1 + u) a) as q. intros p q P Pa.
  assert (Q : 0 <= (p - 1) * q) by (apply qc_mul_nonneg; qc_lra).
  replace ((p - 1) * q) with (p * q - q) in Q by ring. revert Q. generalize (p * q). qc_lra.
Qed.

(** ** Nearness *)
Section Near.
Variables (u : Qc) (Hu : 0 <= u).

Lemma near_size k r x m : near u k r x m -> 0 <= m.
Proof using. intros [H _]. pose proof (Qcabs_nonneg x). qc_lra. Qed.
Lemma near_refl k x m : Qcabs x <= m -> near u k x x m.
Proof using Hu.
  intro H. split; [exact H|]. replace (x - x) with 0 by ring. rewrite (Qcabs_pos 0 (Qcle_refl 0)).
  apply qc_mul_nonneg; [apply growth_nonneg; exact Hu|]. pose proof (Qcabs_nonneg x). qc_lra.
Qed.
Lemma near_0 k : near u k 0 0 0.
Proof using Hu. apply near_refl. rewrite (Qcabs_pos 0 (Qcle_refl 0)). apply Qcle_refl. Qed.
Lemma near_abs k x : near u k x x (Qcabs x).
Proof using Hu. apply near_refl. apply Qcle_refl. Qed.
Lemma near_mono k k' r x m : near u k r x m -> (k <= k')%nat -> near u k' r x m.
Proof using Hu.
  intros N L. pose proof (near_size _ _ _ _ N) as M. destruct N as [H1 H2]. split; [exact H1|].
  eapply Qcle_trans; [exact H2|]. apply qc_mul_le_r; [apply growth_mono; assumption|exact M].
Qed.
Lemma near_big k r x m : near u k r x m -> Qcabs r <= (growth u k + 1) * m.
Proof using.
  intros [H1 H2]. replace r with ((r - x) + x) by ring.
  pose proof (Qcabs_triangle (r - x) x) as T. replace ((growth u k + 1) * m) with (growth u k * m + m) by ring.
  revert T H1 H2. generalize (growth u k * m) (Qcabs (r - x)) (Qcabs x) (Qcabs (r - x + x)). qc_lra.
Qed.
Lemma near_round k y x m r : near u k y x m -> within u y r -> near u (S k) r x m.
Proof using Hu.
  intros N W. pose proof (near_big _ _ _ _ N) as B. destruct N as [H1 H2]. split; [exact H1|].
  unfold within in W. replace (r - x) with ((r - y) + (y - x)) by ring.
  pose proof (Qcabs_triangle (r - y) (y - x)) as T.
  assert (B2 : u * Qcabs y <= u * ((growth u k + 1) * m)) by (apply qc_mul_le_l; assumption).
  assert (E : growth u (S k) * m = u * ((growth u k + 1) * m) + growth u k * m).
  { unfold growth. rewrite pow_S. ring. }
  rewrite E. revert B2 T W H2. generalize (u * ((growth u k + 1) * m)) (u * Qcabs y) (growth u k * m)
    (Qcabs (r - y + (y - x))) (Qcabs (r - y)) (Qcabs (y - x)). qc_lra.
Qed.
Lemma near_add k r1 x1 m1 r2 x2 m2 : near u k r1 x1 m1 -> near u k r2 x2 m2 -> near u k (r1 + r2) (x1 + x2) (m1 + m2).
Proof using.
  intros [H1 H2] [H3 H4]. split.
  - pose proof (Qcabs_triangle x1 x2) as T. revert T H1 H3. generalize (Qcabs (x1 + x2)) (Qcabs x1) (Qcabs x2). qc_lra.
  - replace (r1 + r2 - (x1 + x2)) with ((r1 - x1) + (r2 - x2)) by ring.
    pose proof (Qcabs_triangle (r1 - x1) (r2 - x2)) as T.
    replace (growth u k * (m1 + m2)) with (growth u k * m1 + growth u k * m2) by ring.
    revert T H2 H4. generalize (growth u k * m1) (growth u k * m2) (Qcabs (r1 - x1 + (r2 - x2)))
      (Qcabs (r1 - x1)) (Qcabs (r2 - x2)). qc_lra.
Qed.
Lemma near_opp k r x m : near u k r x m -> near u k (- r) (- x) m.
Proof using.
  intros [H1 H2]. split; [rewrite Qcabs_opp; exact H1|].
  replace (- r - - x) with (- (r - x)) by ring. rewrite Qcabs_opp. exact H2.
Qed.
Lemma near_mul k1 k2 r1 x1 m1 r2 x2 m2 : near u k1 r1 x1 m1 -> near u k2 r2 x2 m2 ->
  near u (k1 + k2) (r1 * r2) (x1 * x2) (m1 * m2).
Proof using Hu.
  intros N1 N2. pose proof (near_big _ _ _ _ N2) as B2. pose proof (near_size _ _ _ _ N1) as M1.
  destruct N1 as [H1 H2]. destruct N2 as [H3 H4]. split.
  - rewrite Qcabs_Qcmult. apply qc_mul_le; try assumption; apply Qcabs_nonneg.
  - replace (r1 * r2 - x1 * x2) with ((r1 - x1) * r2 + x1 * (r2 - x2)) by ring.
    pose proof (Qcabs_triangle ((r1 - x1) * r2) (x1 * (r2 - x2))) as T. rewrite !Qcabs_Qcmult in T.
    assert (G1 : Qcabs (r1 - x1) * Qcabs r2 <= (growth u k1 * m1) * ((growth u k2 + 1) * m2))
      by (apply qc_mul_le; try assumption; apply Qcabs_nonneg).
    assert (G2 : Qcabs x1 * Qcabs (r2 - x2) <= m1 * (growth u k2 * m2))
      by (apply qc_mul_le; try assumption; apply Qcabs_nonneg).
    assert (E : growth u (k1 + k2) * (m1 * m2) = (growth u k1 * m1) * ((growth u k2 + 1) * m2) + m1 * (growth u k2 * m2)).
    { unfold growth. rewrite pow_add. ring. }
    rewrite E. revert T G1 G2.
    generalize (growth u k1 * m1 * ((growth u k2 + 1) * m2)) (m1 * (growth u k2 * m2))
      (Qcabs (r1 - x1) * Qcabs r2) (Qcabs x1 * Qcabs (r2 - x2)) (Qcabs ((r1 - x1) * r2 + x1 * (r2 - x2))). qc_lra.
Qed.
Lemma near_sum k n r x m : (forall i, (i < n)%nat -> near u k (r i) (x i) (m i)) -> near u k (sum n r) (sum n x) (sum n m).
Proof using Hu.
  induction n as [|n IH]; intro H; cbn [sum]; [apply near_0|].
  apply near_add; [apply IH; intros; apply H; lia|apply H; lia].
Qed.
Lemma near_eq k r x m x' m' : near u k r x m -> x = x' -> m = m' -> near u k r x' m'.
Proof using. intros H <- <-. exact H. Qed.

(** ** Rounded sums *)
Definition lsum (l : list Qc) : Qc := fold_right Qcplus 0 l.
Lemma lsum_app a b : lsum (a ++ b) = lsum a + lsum b.
Proof using. unfold lsum. induction a as [|x a IH]; cbn [app fold_right]; [ring|]. rewrite IH. ring. Qed.
Lemma lsum_perm a b : Permutation a b -> lsum a = lsum b.
Proof using. unfold lsum. induction 1; cbn [fold_right] in *; [reflexivity|congruence|ring|congruence]. Qed.
Lemma lsum_seq n f : lsum (map f (seq 0 n)) = sum n f.
Proof using.
  induction n as [|n IH]; [reflexivity|]. rewrite seq_S, map_app, lsum_app, IH. unfold lsum. cbn [map fold_right sum Nat.add]. ring.
Qed.

(** result, exact value, size *)
Definition tri := (Qc * Qc * Qc)%type.
Definition tr (t : tri) : Qc := fst (fst t).
Definition tx (t : tri) : Qc := snd (fst t).
Definition tm (t : tri) : Qc := snd t.
Definition tnear (k : nat) (t : tri) : Prop := near u k (tr t) (tx t) (tm t).

Lemma added_near k l r : added u l r -> forall L, l = map tr L -> Forall (tnear k) L ->
  near u (k + pred (length L)) r (lsum (map tx L)) (lsum (map tm L)).
Proof using Hu.
  induction 1 as [|x|l l1 l2 a b r P N1 N2 A1 IH1 A2 IH2 W]; intros L E N.
  - destruct L; [|discriminate E]. apply near_0.
  - destruct L as [|t L]; [discriminate E|]. destruct L; [|discriminate E]. injection E as ->.
    inversion N as [|? ? N' _]; subst. cbn [map length pred]. rewrite Nat.add_0_r. unfold lsum. cbn [fold_right].
    eapply near_eq; [exact N'| |]; ring.
  - subst l. apply Permutation_sym in P. destruct (Permutation_map_inv _ _ P) as [L' [E' P']].
    symmetry in E'. apply map_eq_app in E'. destruct E' as [L1 [L2 [-> [E1 E2]]]].
    pose proof (Permutation_Forall P' N) as N'. apply Forall_app in N'. destruct N' as [F1 F2].
    specialize (IH1 L1 (eq_sym E1) F1). specialize (IH2 L2 (eq_sym E2) F2).
    rewrite (lsum_perm _ _ (Permutation_map tx P')), (lsum_perm _ _ (Permutation_map tm P')).
    rewrite !map_app, !lsum_app.
    assert (Ln : length L = (length L1 + length L2)%nat).
    { rewrite (Permutation_length P'). apply app_length. }
    assert (1 <= length L1)%nat by (destruct L1; [subst; contradiction|cbn; lia]).
    assert (1 <= length L2)%nat by (destruct L2; [subst; contradiction|cbn; lia]).
    replace (k + pred (length L))%nat with (S (k + pred (length L) - 1)) by lia.
    eapply near_round; [|exact W]. apply near_add; (eapply near_mono; [eassumption|lia]).
Qed.

(** factors: computed values, exact values, sizes *)
Definition six := (tri * tri)%type.
Definition sr (s : six) : Qc * Qc := (tr (fst s), tr (snd s)).
Definition sx (s : six) : Qc := tx (fst s) * tx (snd s).
Definition sm (s : six) : Qc := tm (fst s) * tm (snd s).
Definition snear (k : nat) (s : six) : Prop := near u k (tr (fst s) * tr (snd s)) (sx s) (sm s).

Lemma F_near F t k C S : accurate u F -> Forall (tnear k) C -> Forall (snear k) S ->
  near u (k + (length C + length S)) (F t (map tr C) (map sr S))
    (lsum (map tx C) + lsum (map sx S)) (lsum (map tm C) + lsum (map sm S)).
Proof using Hu.
  intros [_ A] HC HS. destruct (A t (map tr C) (map sr S)) as [rs [R D]].
  assert (G : exists L, rs = map tr L /\ Forall (tnear (1 + k)) L /\ map tx L = map sx S /\ map tm L = map sm S).
  { clear A D HC. revert rs R. induction S as [|s S IH]; intros rs R; inversion R as [|? r ? rs' W R']; subst.
    - exists []. repeat split; constructor.
    - inversion HS as [|? ? Hs HS']; subst. destruct (IH HS' rs' R') as [L [-> [N [E1 E2]]]].
      exists ((r, sx s, sm s) :: L). cbn [map]. rewrite E1, E2. repeat split.
      constructor; [|exact N]. eapply near_round; [exact Hs|exact W]. }
  destruct G as [L [-> [N [E1 E2]]]]. rewrite <- E1, <- E2, <- !lsum_app, <- !map_app.
  rewrite <- map_app in D.
  assert (Ls : length L = length S) by (rewrite <- (map_length tx L), E1; apply map_length).
  destruct (Nat.eq_dec (length C + length S)%nat 0) as [Z|Z].
  - destruct C; [|discriminate Z]. destruct L; [|cbn in Ls; cbn in Z; lia]. cbn in D.
    inversion D as [E0|x|l l1 l2 a b r P N1 N2]; subst.
    + cbn [app map]. match goal with H : _ = F t _ _ |- _ => change (map tr []) with (@nil Qc); rewrite <- H end.
      apply near_0.
    + apply Permutation_nil in P. apply app_eq_nil in P. destruct P as [P _]. contradiction.
  - eapply near_mono.
    + apply (added_near (1 + k) _ _ D (C ++ L)); [reflexivity|]. apply Forall_app. split; [|exact N].
      eapply Forall_impl; [|exact HC]. intros a Ha. eapply near_mono; [exact Ha|lia].
    + rewrite app_length, Ls. lia.
Qed.

(** the shape used everywhere: addends [c] and [n] products *)
Lemma F_near_sum F t k n (a x m b y p : nat -> Qc) C : accurate u F -> Forall (tnear k) C ->
  (forall i, (i < n)%nat -> near u k (a i * b i) (x i * y i) (m i * p i)) ->
  near u (k + (length C + n)) (F t (map tr C) (prods n a b))
    (lsum (map tx C) + sum n (fun i => x i * y i)) (lsum (map tm C) + sum n (fun i => m i * p i)).
Proof using Hu.
  intros A HC HP.
  pose (S := map (fun i => ((a i, x i, m i), (b i, y i, p i)) : six) (seq 0 n)).
  assert (HS : Forall (snear k) S).
  { unfold S. apply Forall_map. apply Forall_forall. intros i Hi. apply in_seq in Hi. apply HP. lia. }
  pose proof (F_near F t k C S A HC HS) as G.
  replace (length S) with n in G by (unfold S; rewrite map_length, seq_length; reflexivity).
  unfold S in G. rewrite !map_map in G. unfold sr, sx, sm, tr, tx, tm in G. cbn [fst snd] in G.
  rewrite !lsum_seq in G. exact G.
Qed.
Lemma F_near_0 F t k n (a x m b y p : nat -> Qc) : accurate u F ->
  (forall i, (i < n)%nat -> near u k (a i * b i) (x i * y i) (m i * p i)) ->
  near u (k + n) (F t [] (prods n a b)) (sum n (fun i => x i * y i)) (sum n (fun i => m i * p i)).
Proof using Hu.
  intros A HP. pose proof (F_near_sum F t k n a x m b y p [] A (Forall_nil _) HP) as G. cbn [map length Nat.add] in G.
  eapply near_eq; [exact G| |]; unfold lsum; cbn [fold_right]; ring.
Qed.
Lemma F_near_1 F t k n c cx cm (a x m b y p : nat -> Qc) : accurate u F -> near u k c cx cm ->
  (forall i, (i < n)%nat -> near u k (a i * b i) (x i * y i) (m i * p i)) ->
  near u (k + n + 1) (F t (c :: nil) (prods n a b)) (cx + sum n (fun i => x i * y i)) (cm + sum n (fun i => m i * p i)).
Proof using Hu.
  intros A HC HP. pose proof (F_near_sum F t k n a x m b y p [(c, cx, cm)] A ltac:(constructor; [exact HC|constructor]) HP) as G.
  cbn [map length Nat.add] in G. replace (k + n + 1)%nat with (k + Datatypes.S n)%nat by lia.
  eapply near_eq; [exact G| |]; unfold lsum, tr, tx, tm; cbn [fold_right fst snd map]; ring.
Qed.
End Near.
