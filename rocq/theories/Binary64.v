(** Binary64.v -- rounding to nearest, ties to even, with 53 significant bits and an unbounded exponent: IEEE 754 double
    precision as long as nothing overflows or underflows.  Two arithmetics built on it, both accurate with u = 2^-53: each
    product and each addition rounded, from left to right; and fused multiply-add. *)
From Coq Require Import Permutation Qcabs Qpower Qabs QArith Lqa.
From Verif Require Import Base Eigen Spec Preview SpecApi PreviewProofs Floats SpecFloats.

(** the integer nearest to a rational *)
Definition nearest (q : Q) : Z :=
  let k := (Qnum q / Zpos (Qden q))%Z in
  let r := (2 * (Qnum q mod Zpos (Qden q)))%Z in
  match Z.compare r (Zpos (Qden q)) with
  | Lt => k
  | Gt => (k + 1)%Z
  | Eq => if Z.even k then k else (k + 1)%Z
  end.
(** the exponent: 2^e <= |q| < 2^(e+1) for q <> 0 *)
Definition exponent (q : Q) : Z :=
  let e := (Z.log2 (Z.abs (Qnum q)) - Z.log2 (Zpos (Qden q)) - 1)%Z in
  if Qle_bool (Qpower 2 (e + 1)) (Qabs q) then (e + 1)%Z else e.
Definition round_Q (q : Q) : Q :=
  if Z.eqb (Qnum q) 0 then 0%Q
  else let e := exponent q in inject_Z (nearest (q * Qpower 2 (52 - e))) * Qpower 2 (e - 52).
Definition round64 (q : Qc) : Qc := Q2Qc (round_Q (this q)).
Definition u64 : Qc := Q2Qc (1 # 9007199254740992).

Open Scope Qc_scope.
(** each product rounded, then added from left to right, each addition rounded *)
Definition sum64 (l : list Qc) : Qc :=
  match l with []%list => 0 | (x :: t)%list => fold_left (fun a y => round64 (a + y)) t x end.
Definition arith64 : arith := fun _ cs ps => sum64 (cs ++ map (fun p => round64 (fst p * snd p)) ps)%list.
(** with fused multiply-add: a <- round (a + b * c) *)
Definition arith64_fma : arith := fun _ cs ps =>
  match cs, ps with
  | []%list, (p :: t)%list => fold_left (fun a p => round64 (a + fst p * snd p)) t (round64 (fst p * snd p))
  | _, _ => fold_left (fun a p => round64 (a + fst p * snd p)) ps (sum64 cs)
  end.

(** ** Accuracy *)
Open Scope Q_scope.
Lemma nearest_half q : Qabs (inject_Z (nearest q) - q) <= 1 # 2.
Proof.
  destruct q as [a d]. unfold nearest. cbn [Qnum Qden].
  pose proof (Z.div_mod a (Zpos d) ltac:(discriminate)) as E.
  pose proof (Z.mod_pos_bound a (Zpos d) ltac:(reflexivity)) as B.
  set (k := (a / Zpos d)%Z) in *. set (r := (a mod Zpos d)%Z) in *.
  apply Qabs_Qle_condition.
  assert (G : forall z, (- Zpos d <= 2 * (z * Zpos d - a) <= Zpos d)%Z -> - (1 # 2) <= inject_Z z - (a # d) <= 1 # 2).
  { intros z Hz. unfold Qle, Qminus, Qplus, Qopp, inject_Z. cbn [Qnum Qden]. rewrite ?Pos2Z.inj_mul. split; nia. }
  apply G. destruct (Z.compare_spec (2 * r) (Zpos d)) as [C|C|C]; [destruct (Z.even k)| |]; nia.
Qed.
Lemma pow2_pos e : 0 < Qpower 2 e.
Proof. apply Qpower_0_lt. reflexivity. Qed.
Lemma exponent_le q : ~ Qnum q = 0%Z -> Qpower 2 (exponent q) <= Qabs q.
Proof.
  intro N. unfold exponent. destruct (Qle_bool _ _) eqn:E; [apply Qle_bool_iff in E; exact E|]. clear E.
  destruct q as [a d]. cbn [Qnum Qden Qabs] in *.
  pose proof (Z.log2_spec (Z.abs a) ltac:(lia)) as [A _].
  pose proof (Z.log2_spec (Zpos d) ltac:(lia)) as [_ B].
  pose proof (Z.log2_nonneg (Z.abs a)) as A0. pose proof (Z.log2_nonneg (Zpos d)) as B0.
  set (la := Z.log2 (Z.abs a)) in *. set (ld := Z.log2 (Zpos d)) in *.
  replace (la - ld - 1)%Z with (la + - (ld + 1))%Z by lia. rewrite Qpower_plus by discriminate. rewrite Qpower_opp.
  assert (PA : Qpower 2 la <= inject_Z (Z.abs a)).
  { rewrite <- (Zpower_Qpower 2 la) by exact A0. rewrite <- Zle_Qle. exact A. }
  assert (PB : inject_Z (Zpos d) <= Qpower 2 (ld + 1)).
  { rewrite <- (Zpower_Qpower 2 (ld + 1)) by lia. rewrite <- Zle_Qle. replace (ld + 1)%Z with (Z.succ ld) by lia. lia. }
  pose proof (pow2_pos (ld + 1)) as P1. pose proof (pow2_pos la) as P0.
  set (x := Qpower 2 la) in *. set (y := Qpower 2 (ld + 1)) in *. clearbody x y.
  apply Qle_shift_div_r; [exact P1|].
  apply Qle_trans with (inject_Z (Z.abs a)); [exact PA|].
  apply Qle_trans with ((Z.abs a # d) * inject_Z (Zpos d)).
  - unfold Qle, Qmult, inject_Z. cbn [Qnum Qden]. rewrite ?Pos2Z.inj_mul. nia.
  - rewrite !(Qmult_comm (Z.abs a # d)). apply Qmult_le_compat_r; [exact PB|].
    unfold Qle. cbn [Qnum Qden]. nia.
Qed.
Lemma round_Q_within q : Qabs (round_Q q - q) <= (1 # 9007199254740992) * Qabs q.
Proof.
  unfold round_Q. destruct (Z.eqb_spec (Qnum q) 0) as [Z0|N].
  - assert (E : q == 0) by (destruct q as [a d]; cbn in Z0; subst a; reflexivity).
    rewrite E. cbn. discriminate.
  - cbv zeta. pose proof (exponent_le q N) as L. set (e := exponent q) in *.
    pose proof (nearest_half (q * Qpower 2 (52 - e))) as H.
    set (k := inject_Z (nearest (q * Qpower 2 (52 - e)))) in *. clearbody k.
    pose proof (pow2_pos (e - 52)) as P.
    assert (E1 : Qpower 2 (52 - e) * Qpower 2 (e - 52) == 1).
    { rewrite <- Qpower_plus by discriminate. replace (52 - e + (e - 52))%Z with 0%Z by lia. reflexivity. }
    assert (E2 : k * Qpower 2 (e - 52) - q == (k - q * Qpower 2 (52 - e)) * Qpower 2 (e - 52)).
    { transitivity (k * Qpower 2 (e - 52) - q * (Qpower 2 (52 - e) * Qpower 2 (e - 52))); [rewrite E1; ring|ring]. }
    rewrite E2, Qabs_Qmult, (Qabs_pos (Qpower 2 (e - 52))) by (apply Qlt_le_weak; exact P).
    apply Qle_trans with ((1 # 2) * Qpower 2 (e - 52)); [apply Qmult_le_compat_r; [exact H|apply Qlt_le_weak; exact P]|].
    assert (E3 : Qpower 2 (e - 52) == Qpower 2 e * (1 # 4503599627370496)).
    { replace (e - 52)%Z with (e + - (52))%Z by lia. rewrite Qpower_plus by discriminate. reflexivity. }
    rewrite E3. lra.
Qed.
Open Scope Qc_scope.
Lemma qcabs_this x : this (Qcabs x) == Qabs (this x).
Proof. unfold Qcabs. cbn [this]. reflexivity. Qed.
Lemma round64_within q : within u64 q (round64 q).
Proof.
  unfold within, Qcle. rewrite qcabs_this. unfold Qcmult, Qcminus, Qcplus, Qcopp, round64, u64. cbn [this Q2Qc].
  rewrite !Qred_correct, qcabs_this. apply round_Q_within.
Qed.
Lemma u64_nonneg : 0 <= u64.
Proof. unfold Qcle. discriminate. Qed.
Lemma within_self u x : 0 <= u -> within u x x.
Proof.
  intro H. unfold within. replace (x - x) with 0 by ring. rewrite (Qcabs_pos 0 (Qcle_refl 0)).
  apply qc_mul_nonneg; [exact H|apply Qcabs_nonneg].
Qed.

Lemma added_fold t : forall l a, added u64 l a -> l <> nil ->
  added u64 (l ++ t)%list (fold_left (fun a y => round64 (a + y)) t a).
Proof.
  induction t as [|y t IH]; intros l a H N; cbn [fold_left].
  - rewrite app_nil_r. exact H.
  - replace (l ++ y :: t)%list with ((l ++ (y :: nil)) ++ t)%list by (rewrite <- app_assoc; reflexivity).
    apply IH; [|destruct l; discriminate].
    eapply add_two; [apply Permutation_refl|exact N|discriminate|exact H|apply add_one|apply round64_within].
Qed.
Lemma sum64_added l : added u64 l (sum64 l).
Proof.
  destruct l as [|x t]; [constructor|]. unfold sum64. apply (added_fold t (x :: nil)); [constructor|discriminate].
Qed.
Theorem arith64_accurate : accurate u64 arith64.
Proof.
  split; [apply u64_nonneg|]. intros t cs ps. exists (map (fun p => round64 (fst p * snd p)) ps). split.
  - induction ps as [|p ps IH]; constructor; [apply round64_within|exact IH].
  - apply sum64_added.
Qed.
Lemma fma_fold ps : forall l a, added u64 l a -> l <> nil ->
  added u64 (l ++ map (fun p => fst p * snd p) ps)%list (fold_left (fun a p => round64 (a + fst p * snd p)) ps a).
Proof.
  induction ps as [|p t IH]; intros l a H N; cbn [fold_left map].
  - rewrite app_nil_r. exact H.
  - replace (l ++ fst p * snd p :: map (fun p => fst p * snd p) t)%list
      with ((l ++ (fst p * snd p :: nil)) ++ map (fun p => fst p * snd p) t)%list by (rewrite <- app_assoc; reflexivity).
    apply IH; [|destruct l; discriminate].
    eapply add_two; [apply Permutation_refl|exact N|discriminate|exact H|apply add_one|apply round64_within].
Qed.
Theorem arith64_fma_accurate : accurate u64 arith64_fma.
Proof.
  assert (G : forall ps : list (Qc * Qc), Forall2 (fun p r => within u64 (fst p * snd p) r) ps (map (fun p => fst p * snd p) ps)).
  { induction ps as [|p ps IH]; constructor; [apply within_self; apply u64_nonneg|exact IH]. }
  split; [apply u64_nonneg|]. intros t cs ps. unfold arith64_fma. destruct cs as [|c cs].
  - destruct ps as [|p ps].
    + exists nil. split; [constructor|]. cbn. constructor.
    + exists (round64 (fst p * snd p) :: map (fun p => fst p * snd p) ps)%list.
      split; [constructor; [apply round64_within|apply G]|].
      apply (fma_fold ps (round64 (fst p * snd p) :: nil)); [constructor|discriminate].
  - exists (map (fun p => fst p * snd p) ps). split; [apply G|].
    apply (fma_fold ps (c :: cs)%list); [apply sum64_added|discriminate].
Qed.
(** 0.1 + 0.2 is not 0.3 *)
Example round64_example :
  round64 (Q2Qc (1 # 10)) = Q2Qc (3602879701896397 # 36028797018963968) /\
  arith64 nil (round64 (Q2Qc (1 # 10)) :: round64 (Q2Qc (2 # 10)) :: nil) nil = Q2Qc (1351079888211149 # 4503599627370496) /\
  round64 (Q2Qc (3 # 10)) = Q2Qc (5404319552844595 # 18014398509481984).
Proof. repeat split; apply Qc_is_canon; vm_compute; reflexivity. Qed.
