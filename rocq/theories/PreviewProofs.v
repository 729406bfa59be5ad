(** PreviewProofs.v -- proofs about the preview system model. *)
From Verif Require Import Base Eigen Spec Preview SpecApi.

(** ** Stacked indices and block writes *)

Lemma seg_cond n r k i : i < n ->
  (r * n <=? k * n + i) && (k * n + i <? r * n + n) = Nat.eqb k r.
Proof.
  intro Hi. destruct (Nat.eqb_spec k r) as [->|E].
  - apply andb_true_intro. split; [apply Nat.leb_le|apply Nat.ltb_lt]; lia.
  - apply andb_false_iff. destruct (Nat.lt_ge_cases k r).
    + left. apply Nat.leb_gt. nia.
    + right. apply Nat.ltb_ge. nia.
Qed.

Lemma blk_cond n m r c k i l j : i < n -> j < m ->
  (r * n <=? k * n + i) && (k * n + i <? r * n + n) && (c * m <=? l * m + j) && (l * m + j <? c * m + m)
  = Nat.eqb k r && Nat.eqb l c.
Proof.
  intros Hi Hj. rewrite <- andb_assoc. rewrite !seg_cond by assumption. reflexivity.
Qed.

(** a write of whole block rows: all columns *)
Lemma row_cond n w r k i c : i < n -> c < w ->
  (r * n <=? k * n + i) && (k * n + i <? r * n + n) && (0 <=? c) && (c <? 0 + w) = Nat.eqb k r.
Proof.
  intros Hi Hc. rewrite <- andb_assoc. rewrite seg_cond by assumption.
  rewrite (proj2 (Nat.ltb_lt _ _)) by lia. cbn. apply andb_true_r.
Qed.

Lemma blk_sub k n i : k * n + i - k * n = i.
Proof. lia. Qed.

(** ** Closed forms *)

Fixpoint powA (n : nat) (A : nat -> nat -> Qc) (k : nat) : nat -> nat -> Qc :=
  match k with
  | O => fun i j => if Nat.eqb i j then 1%Qc else 0%Qc
  | S p => fun i j => sum n (fun l => A i l * powA n A p l j)%Qc
  end.
Fixpoint powAB (n : nat) (A B : nat -> nat -> Qc) (k : nat) : nat -> nat -> Qc :=
  match k with
  | O => B
  | S p => fun i j => sum n (fun l => A i l * powAB n A B p l j)%Qc
  end.
Definition PsiB (n : nat) (A B : nat -> nat -> Qc) (k l : nat) : nat -> nat -> Qc :=
  if l <? k then powAB n A B (k - 1 - l) else fun _ _ => 0%Qc.
Fixpoint xiB (n : nat) (A : nat -> nat -> Qc) (d : nat -> Qc) (k : nat) : nat -> Qc :=
  match k with
  | O => fun _ => 0%Qc
  | S p => fun i => (sum n (fun l => A i l * xiB n A d p l) + d i)%Qc
  end.

Lemma PsiB_upper n A B k l i j : k <= l -> PsiB n A B k l i j = 0%Qc.
Proof. intro H. unfold PsiB. rewrite (proj2 (Nat.ltb_ge _ _)) by lia. reflexivity. Qed.
Lemma PsiB_diag n A B k i j : PsiB n A B (S k) k i j = B i j.
Proof.
  unfold PsiB. rewrite (proj2 (Nat.ltb_lt _ _)) by lia.
  replace (S k - 1 - k) with 0 by lia. reflexivity.
Qed.
Lemma PsiB_step n A B k l i j : l < k ->
  PsiB n A B (S k) l i j = sum n (fun q => A i q * PsiB n A B k l q j)%Qc.
Proof.
  intro H. unfold PsiB. rewrite !(proj2 (Nat.ltb_lt _ _)) by lia.
  replace (S k - 1 - l) with (S (k - 1 - l)) by lia. reflexivity.
Qed.
Lemma PsiB_shift n A B k l i j : PsiB n A B (S k) (S l) i j = PsiB n A B k l i j.
Proof.
  unfold PsiB. destruct (Nat.ltb_spec l k).
  - rewrite (proj2 (Nat.ltb_lt _ _)) by lia. replace (S k - 1 - S l) with (k - 1 - l) by lia. reflexivity.
  - rewrite (proj2 (Nat.ltb_ge _ _)) by lia. reflexivity.
Qed.

(** the affine form of the trajectory *)
Lemma state_at_affine n m N A B d x U k : k <= N -> forall i, i < n ->
  (sum n (fun j => powA n A k i j * x j)
   + sum (N * m) (fun c => PsiB n A B k (c / m) i (c mod m) * U c)
   + xiB n A d k i)%Qc
  = state_at n m A B d x U k i.
Proof.
  assert (E : forall k i, sum (N * m) (fun c => PsiB n A B k (c / m) i (c mod m) * U c)%Qc
              = sum N (fun l => sum m (fun j => PsiB n A B k l i j * U (l * m + j)%nat))%Qc).
  { intros k0 i0. rewrite sum_blocks. apply sum_ext; intros l Hl. apply sum_ext; intros j Hj.
    rewrite blk_quot, blk_rem by assumption. reflexivity. }
  revert k. induction k as [|k IH]; intros Hk i Hi; rewrite E.
  - cbn [powA xiB state_at].
    rewrite (sum_ext n _ (fun j => if Nat.eqb j i then x j else 0%Qc)).
    2:{ intros j Hj. rewrite (Nat.eqb_sym i j). destruct (Nat.eqb j i); ring. }
    rewrite sum_delta by exact Hi.
    rewrite sum_zero; [ring|]. intros l Hl. apply sum_zero. intros j Hj.
    rewrite PsiB_upper by lia. ring.
  - cbn [state_at powA xiB].
    rewrite (sum_ext n (fun j => A i j * state_at n m A B d x U k j)%Qc
      (fun q => (A i q * sum n (fun j => powA n A k q j * x j)
                 + A i q * sum N (fun l => sum m (fun j => PsiB n A B k l q j * U (l * m + j)%nat))
                 + A i q * xiB n A d k q)%Qc)).
    2:{ intros q Hq. rewrite <- IH by lia. rewrite E. ring. }
    rewrite !sum_add.
    assert (E1 : sum n (fun j => sum n (fun l => A i l * powA n A k l j) * x j)%Qc
                 = sum n (fun q => A i q * sum n (fun j => powA n A k q j * x j))%Qc).
    { rewrite (sum_ext n _ (fun j => sum n (fun q => A i q * powA n A k q j * x j)%Qc)).
      2:{ intros j Hj. rewrite sum_scal_r. reflexivity. }
      rewrite sum_swap. apply sum_ext; intros q Hq. rewrite <- sum_scal_l.
      apply sum_ext; intros; ring. }
    assert (E2 : sum N (fun l => sum m (fun j => PsiB n A B (S k) l i j * U (l * m + j)%nat))%Qc
      = (sum n (fun q => A i q * sum N (fun l => sum m (fun j => PsiB n A B k l q j * U (l * m + j)%nat)))
         + sum m (fun j => B i j * U (k * m + j)%nat))%Qc).
    { rewrite (sum_ext n _ (fun q => sum N (fun l => sum m (fun j => A i q * PsiB n A B k l q j * U (l * m + j)%nat)%Qc))).
      2:{ intros q Hq. rewrite <- sum_scal_l. apply sum_ext; intros l Hl. rewrite <- sum_scal_l.
          apply sum_ext; intros; ring. }
      rewrite (sum_swap n N).
      replace N with (S k + (N - S k)) by lia. rewrite !sum_plus.
      rewrite (sum_zero (N - S k)).
      2:{ intros l Hl. apply sum_zero. intros j Hj. rewrite PsiB_upper by lia. ring. }
      rewrite (sum_zero (N - S k)).
      2:{ intros l Hl. apply sum_zero. intros q Hq. apply sum_zero. intros j Hj.
          rewrite PsiB_upper by lia. ring. }
      cbn [sum].
      rewrite (sum_ext m (fun j => PsiB n A B (S k) k i j * U (k * m + j)%nat)%Qc
                 (fun j => B i j * U (k * m + j)%nat)%Qc).
      2:{ intros j Hj. rewrite PsiB_diag. reflexivity. }
      rewrite (sum_zero n (fun q => sum m (fun j => A i q * PsiB n A B k k q j * U (k * m + j)%nat)%Qc)).
      2:{ intros q Hq. apply sum_zero. intros j Hj. rewrite PsiB_upper by lia. ring. }
      rewrite (sum_ext k (fun l => sum m (fun j => PsiB n A B (S k) l i j * U (l * m + j)%nat)%Qc)
        (fun l => sum n (fun q => sum m (fun j => A i q * PsiB n A B k l q j * U (l * m + j)%nat)%Qc))).
      2:{ intros l Hl. rewrite sum_swap. apply sum_ext; intros j Hj.
          rewrite PsiB_step by lia. rewrite <- sum_scal_r. reflexivity. }
      ring. }
    rewrite E1, E2. ring.
Qed.

(** ** Well-formed preview systems (everything except the size of x0) *)

Record ps_wf (ps : psys) : Prop := {
  wf_nx : nrXStep ps = nrUStep ps + 1;
  wf_nu : 1 <= nrUStep ps;
  wf_fx : fullXDim ps = xDim ps * nrXStep ps;
  wf_fu : fullUDim ps = uDim ps * nrUStep ps;
  wf_Ar : rows (psA ps) = xDim ps;
  wf_Ac : cols (psA ps) = xDim ps;
  wf_Br : rows (psB ps) = xDim ps;
  wf_Bc : cols (psB ps) = uDim ps;
  wf_d : vsize (psd ps) = xDim ps;
  wf_Phr : rows (psPhi ps) = fullXDim ps;
  wf_Phc : cols (psPhi ps) = xDim ps;
  wf_Psr : rows (psPsi ps) = fullXDim ps;
  wf_Psc : cols (psPsi ps) = fullUDim ps;
  wf_xi : vsize (psxi ps) = fullXDim ps;
  (* what update never writes *)
  wf_Ph0 : forall i j, i < xDim ps -> j < xDim ps ->
             at_ (psPhi ps) i j = if Nat.eqb i j then 1%Qc else 0%Qc;
  wf_xi0 : forall i, i < xDim ps -> vget (psxi ps) i = 0%Qc;
  wf_Ps0 : forall k l i j, k < nrXStep ps -> l < nrUStep ps -> k <= l -> i < xDim ps -> j < uDim ps ->
             at_ (psPsi ps) (k * xDim ps + i) (l * uDim ps + j) = 0%Qc
}.

(** Phi, Psi, xi are those of the current A, B, d *)
Record ps_rep (ps : psys) : Prop := {
  rep_Phi : forall k i j, k < nrXStep ps -> i < xDim ps -> j < xDim ps ->
     at_ (psPhi ps) (k * xDim ps + i) j = powA (xDim ps) (at_ (psA ps)) k i j;
  rep_Psi : forall k l i j, k < nrXStep ps -> l < nrUStep ps -> i < xDim ps -> j < uDim ps ->
     at_ (psPsi ps) (k * xDim ps + i) (l * uDim ps + j) = PsiB (xDim ps) (at_ (psA ps)) (at_ (psB ps)) k l i j;
  rep_xi : forall k i, k < nrXStep ps -> i < xDim ps ->
     vget (psxi ps) (k * xDim ps + i) = xiB (xDim ps) (at_ (psA ps)) (vget (psd ps)) k i
}.

Section Update.
Variables (ps : psys) (W : ps_wf ps).
Let n := xDim ps.
Let m := uDim ps.
Let NX := nrXStep ps.
Let NU := nrUStep ps.
Let A := at_ (psA ps).
Let B := at_ (psB ps).
Let dd := vget (psd ps).

Definition linv (t : nat) (s : mx * mx * vec Qc) : Prop :=
  let '(Phi, Psi, xi) := s in
  rows Phi = n * NX /\ cols Phi = n /\ rows Psi = n * NX /\ cols Psi = m * NU /\ vsize xi = n * NX /\
  (forall k i j, k < t -> i < n -> j < n -> at_ Phi (k * n + i) j = powA n A k i j) /\
  (forall k l i j, k < NX -> l < NU -> i < n -> j < m -> (k < t \/ k <= l) ->
      at_ Psi (k * n + i) (l * m + j) = PsiB n A B k l i j) /\
  (forall k i, k < t -> i < n -> vget xi (k * n + i) = xiB n A dd k i).

Let Enx : NX = NU + 1 := wf_nx ps W.

Lemma psi_shift_ok t Psi : 2 <= t < NX ->
  rows Psi = n * NX -> cols Psi = m * NU ->
  (forall k l i j, k < NX -> l < NU -> i < n -> j < m ->
     (k < t \/ k <= l \/ (k = t /\ l < 1)) ->
     at_ Psi (k * n + i) (l * m + j) = PsiB n A B k l i j) ->
  exists Psi', psi_shift n m t Psi = Some Psi' /\
    rows Psi' = n * NX /\ cols Psi' = m * NU /\
    (forall k l i j, k < NX -> l < NU -> i < n -> j < m -> (k < 1 + t \/ k <= l) ->
      at_ Psi' (k * n + i) (l * m + j) = PsiB n A B k l i j).
Proof.
  intros Ht Hr Hc HP. unfold psi_shift.
  destruct (for_inv (fun q P => rows P = n * NX /\ cols P = m * NU /\
     (forall k l i j, k < NX -> l < NU -> i < n -> j < m ->
       (k < t \/ k <= l \/ (k = t /\ l < q)) ->
       at_ P (k * n + i) (l * m + j) = PsiB n A B k l i j)) 1 t
     (fun j P => b <- block P ((t - 1) * n) ((j - 1) * m) n m ;; setBlock P (t * n) (j * m) n m b) Psi)
    as [P' [E [R1 [R2 R3]]]].
  - lia.
  - repeat split; assumption.
  - intros q P Hq [I1 [I2 I3]].
    assert (q < NU) by lia.
    rewrite block_ok by nia. cbn [obind].
    rewrite setBlock_ok by (cbn; nia). eexists. split; [reflexivity|]. cbn [rows cols at_].
    repeat split; [assumption|assumption|].
    intros k l i j Hk Hl Hi Hj Hcase. rewrite blk_cond by assumption.
    destruct (Nat.eqb_spec k t) as [->|Ek]; cbn [andb].
    + destruct (Nat.eqb_spec l q) as [->|El].
      * rewrite !blk_sub.
        destruct q as [|q]; [lia|]. destruct t as [|t']; [lia|].
        replace (S q - 1) with q by lia. replace (S t' - 1) with t' by lia.
        rewrite I3 by lia. rewrite PsiB_shift. reflexivity.
      * apply I3; lia.
    + apply I3; lia.
  - exists P'. repeat split; try assumption.
    intros k l i j Hk Hl Hi Hj Hcase. apply R3; lia.
Qed.

Lemma update_step_ok t s : 2 <= t < NX -> linv t s ->
  exists s', update_step n m (psA ps) (psd ps) t s = Some s' /\ linv (1 + t) s'.
Proof.
  destruct s as [[Phi Psi] xi]. intros Ht [I1 [I2 [I3 [I4 [I5 [I6 [I7 I8]]]]]]].
  pose proof (wf_Ar ps W) as WAr. pose proof (wf_Ac ps W) as WAc. pose proof (wf_d ps W) as Wd.
  fold n in WAr, WAc, Wd. fold n in I1, I2, I3, I5. fold m in I4.
  assert (HN : 1 <= NU) by (exact (wf_nu ps W)).
  unfold update_step.
  rewrite block_ok by nia. cbn [obind].
  rewrite mmul_ok by (cbn; congruence). cbn [obind cols at_ rows].
  rewrite setBlock_ok by (cbn; nia). cbn [obind cols at_ rows].
  rewrite block_ok by nia. cbn [obind].
  rewrite mmul_ok by (cbn; congruence). cbn [obind cols at_ rows].
  rewrite setBlock_ok by (cbn; nia). cbn [obind cols at_ rows].
  match goal with |- context [psi_shift n m t ?P] => set (Psi1 := P) end.
  destruct (psi_shift_ok t Psi1) as [Psi2 [E2 [S1 [S2 S3]]]]; [lia|assumption|assumption| |].
  { intros k l i j Hk Hl Hi Hj Hcase. unfold Psi1. cbn [at_].
    pose proof (blk_cond n m t 0 k i l j Hi Hj) as EC. cbn [Nat.mul Nat.add] in EC.
    cbn [Nat.add] in *. rewrite EC.
    destruct (Nat.eqb_spec k t) as [->|Ek]; cbn [andb].
    - destruct (Nat.eqb_spec l 0) as [->|El].
      + rewrite blk_sub. cbn [Nat.mul Nat.add]. rewrite Nat.sub_0_r.
        destruct t as [|t']; [lia|]. replace (S t' - 1) with t' by lia.
        rewrite PsiB_step by lia. rewrite WAc. apply sum_ext; intros q Hq.
        pose proof (I7 t' 0 q j) as H7. cbn [Nat.mul Nat.add] in H7. rewrite H7 by lia. reflexivity.
      + apply I7; lia.
    - apply I7; lia. }
  rewrite E2. cbn [obind].
  rewrite seg_ok by nia. cbn [obind].
  rewrite mvmul_ok by (cbn; congruence). cbn [obind vsize vget].
  rewrite vadd_ok by (cbn; congruence). cbn [obind vsize vget].
  rewrite setSeg_ok by (cbn; nia). cbn [obind vsize vget].
  eexists. split; [reflexivity|].
  unfold linv. cbn [rows cols at_ vsize vget].
  repeat split; try assumption.
  - intros k i j Hk Hi Hj. pose proof (row_cond n n t k i j Hi Hj) as EC. cbn [Nat.add] in *. rewrite EC.
    destruct (Nat.eqb_spec k t) as [->|Ek].
    + rewrite blk_sub, Nat.sub_0_r. destruct t as [|t']; [lia|]. replace (S t' - 1) with t' by lia.
      cbn [powA]. rewrite WAc. apply sum_ext; intros q Hq. rewrite I6 by lia. reflexivity.
    + apply I6; lia.
  - intros k i Hk Hi. rewrite seg_cond by assumption.
    destruct (Nat.eqb_spec k t) as [->|Ek].
    + rewrite blk_sub. destruct t as [|t']; [lia|]. replace (S t' - 1) with t' by lia.
      cbn [xiB]. rewrite WAc. f_equal. apply sum_ext; intros q Hq. rewrite I8 by lia. reflexivity.
    + apply I8; lia.
Qed.

Lemma updateSystem_ok : exists ps', updateSystem ps = Some ps' /\
  ps_wf ps' /\ ps_rep ps' /\ isUpdated ps' = true /\
  nrUStep ps' = nrUStep ps /\ nrXStep ps' = nrXStep ps /\ xDim ps' = xDim ps /\ uDim ps' = uDim ps /\
  fullXDim ps' = fullXDim ps /\ fullUDim ps' = fullUDim ps /\ x0 ps' = x0 ps /\
  psA ps' = psA ps /\ psB ps' = psB ps /\ psd ps' = psd ps.
Proof.
  unfold updateSystem.
  pose proof (wf_Ar ps W) as WAr. pose proof (wf_Ac ps W) as WAc. pose proof (wf_d ps W) as Wd.
  pose proof (wf_Br ps W) as WBr. pose proof (wf_Bc ps W) as WBc.
  pose proof (wf_Phr ps W) as W1. pose proof (wf_Phc ps W) as W2.
  pose proof (wf_Psr ps W) as W3. pose proof (wf_Psc ps W) as W4. pose proof (wf_xi ps W) as W5.
  rewrite (wf_fx ps W) in W1, W3, W5. rewrite (wf_fu ps W) in W4.
  assert (HN : 1 <= NU) by (exact (wf_nu ps W)).
  fold n m in WAr, WAc, Wd, WBr, WBc, W1, W2, W3, W4, W5 |- *. fold NX in W1, W3, W5 |- *. fold NU in W4 |- *.
  rewrite setBlock_ok by nia. cbn [obind].
  rewrite setBlock_ok by nia. cbn [obind].
  rewrite setSeg_ok by nia. cbn [obind].
  match goal with |- context [for_ 2 NX _ ?s] => set (s0 := s) end.
  destruct (for_inv linv 2 NX (update_step n m (psA ps) (psd ps)) s0) as [[[Phi Psi] xi] [E I]].
  - lia.
  - unfold s0, linv. cbn [rows cols at_ vsize vget]. repeat split; try assumption.
    + intros k i j Hk Hi Hj.
      pose proof (row_cond n n 1 k i j Hi Hj) as EC. rewrite !Nat.mul_1_l in EC. cbn [Nat.add] in *. rewrite EC.
      destruct (Nat.eqb_spec k 1) as [->|Ek].
      * rewrite Nat.mul_1_l. replace (n + i - n) with i by lia. rewrite Nat.sub_0_r.
        cbn [powA]. rewrite (sum_ext n _ (fun l => if Nat.eqb l j then A i l else 0%Qc)).
        { rewrite sum_delta by assumption. reflexivity. }
        intros l Hl. destruct (Nat.eqb l j); ring.
      * assert (k = 0) by lia. subst k. cbn [Nat.mul Nat.add powA]. apply (wf_Ph0 ps W); assumption.
    + intros k l i j Hk Hl Hi Hj Hcase.
      pose proof (blk_cond n m 1 0 k i l j Hi Hj) as EC. rewrite !Nat.mul_1_l in EC. cbn [Nat.mul Nat.add] in EC.
      cbn [Nat.add] in *. rewrite EC.
      destruct (Nat.eqb_spec k 1) as [->|Ek]; cbn [andb].
      * destruct (Nat.eqb_spec l 0) as [->|El].
        { rewrite Nat.mul_1_l. replace (n + i - n) with i by lia. cbn [Nat.mul Nat.add]. rewrite Nat.sub_0_r.
          rewrite PsiB_diag. reflexivity. }
        { rewrite PsiB_upper by lia. apply (wf_Ps0 ps W); try assumption; lia. }
      * rewrite PsiB_upper by lia. apply (wf_Ps0 ps W); try assumption; lia.
    + intros k i Hk Hi.
      pose proof (seg_cond n 1 k i Hi) as EC. rewrite !Nat.mul_1_l in EC. rewrite EC.
      destruct (Nat.eqb_spec k 1) as [->|Ek].
      * rewrite Nat.mul_1_l. replace (n + i - n) with i by lia.
        cbn [xiB]. rewrite sum_zero; [unfold dd; ring|]. intros; ring.
      * assert (k = 0) by lia. subst k. cbn [Nat.mul Nat.add xiB]. apply (wf_xi0 ps W); assumption.
  - intros t s Ht Hs. apply update_step_ok; assumption.
  - rewrite E. cbn [obind]. eexists. split; [reflexivity|].
    destruct I as [I1 [I2 [I3 [I4 [I5 [I6 [I7 I8]]]]]]].
    assert (Hn0 : forall i, i < n -> i = 0 * n + i) by reflexivity.
    split.
    + pose proof (wf_fx ps W) as Wfx. pose proof (wf_fu ps W) as Wfu.
      fold n m NX NU in Wfx, Wfu.
      split; cbn [nrXStep nrUStep xDim uDim fullXDim fullUDim psA psB psd psPhi psPsi psxi];
        fold n m NX NU; try assumption; try congruence; try apply W.
      * intros i j Hi Hj. pose proof (I6 0 i j) as H6. cbn [Nat.mul Nat.add powA] in H6. apply H6; lia.
      * intros i Hi. pose proof (I8 0 i) as H8. cbn [Nat.mul Nat.add xiB] in H8. apply H8; lia.
      * intros k l i j Hk Hl Hkl Hi Hj. rewrite I7 by lia. apply PsiB_upper; lia.
    + split; [|cbn; repeat split; reflexivity].
      split; cbn [nrXStep nrUStep xDim uDim fullXDim fullUDim psA psB psd psPhi psPsi psxi];
        fold n m NX NU A B dd.
      * intros; apply I6; lia.
      * intros; apply I7; lia.
      * intros; apply I8; lia.
Qed.

End Update.

(** two systems that agree on everything, entry by entry *)
Definition ps_same (p q : psys) : Prop :=
  isUpdated p = isUpdated q /\ nrUStep p = nrUStep q /\ nrXStep p = nrXStep q /\ xDim p = xDim q /\
  uDim p = uDim q /\ fullXDim p = fullXDim q /\ fullUDim p = fullUDim q /\ veq (x0 p) (x0 q) /\
  meq (psA p) (psA q) /\ meq (psB p) (psB q) /\ veq (psd p) (psd q) /\
  meq (psPhi p) (psPhi q) /\ meq (psPsi p) (psPsi q) /\ veq (psxi p) (psxi q).

Lemma powA_ext n A A' k : (forall i j, i < n -> j < n -> A i j = A' i j) ->
  forall i j, i < n -> j < n -> powA n A k i j = powA n A' k i j.
Proof.
  intro H. induction k as [|k IH]; intros i j Hi Hj; cbn [powA]; [reflexivity|].
  apply sum_ext; intros l Hl. rewrite H, IH by assumption. reflexivity.
Qed.

Lemma system_cases ps s c b x nb :
  match system ps s c b x nb with
  | Throw e ps' => e = DomainError /\ ps' = ps /\
      (vsize x <> rows s \/ rows s <> cols s \/ vsize x <> rows c \/ vsize x <> vsize b \/ (nb <= 0)%Z)
  | Ok ps' =>
      vsize x = rows s /\ rows s = cols s /\ vsize x = rows c /\ vsize x = vsize b /\ (0 < nb)%Z /\
      ps_wf ps' /\ isUpdated ps' = false /\
      xDim ps' = cols s /\ uDim ps' = cols c /\ nrUStep ps' = Z.to_nat nb /\ nrXStep ps' = Z.to_nat nb + 1 /\
      x0 ps' = x /\ psA ps' = s /\ psB ps' = c /\ psd ps' = b /\
      (forall i j, xDim ps' <= i < fullXDim ps' -> j < xDim ps' -> at_ (psPhi ps') i j = 0%Qc) /\
      (forall i j, at_ (psPsi ps') i j = 0%Qc) /\ (forall i, vget (psxi ps') i = 0%Qc) /\
      (fits_int (Z.to_nat nb + 1) && fits_int (cols s) && fits_int (cols c)
        && fits_int (cols s * (Z.to_nat nb + 1)) && fits_int (cols c * Z.to_nat nb) = true)
  | UB =>
      vsize x = rows s /\ rows s = cols s /\ vsize x = rows c /\ vsize x = vsize b /\ (0 < nb)%Z /\
      (fits_int (Z.to_nat nb + 1) && fits_int (cols s) && fits_int (cols c)
        && fits_int (cols s * (Z.to_nat nb + 1)) && fits_int (cols c * Z.to_nat nb) = false)
  end.
Proof.
  unfold system.
  destruct (Nat.eqb_spec (vsize x) (rows s)) as [E1|E1]; cbn [negb]; [|tauto].
  destruct (Nat.eqb_spec (rows s) (cols s)) as [E2|E2]; cbn [negb]; [|tauto].
  destruct (Nat.eqb_spec (vsize x) (rows c)) as [E3|E3]; cbn [negb]; [|tauto].
  destruct (Nat.eqb_spec (vsize x) (vsize b)) as [E4|E4]; cbn [negb]; [|tauto].
  destruct (Z.leb_spec nb 0) as [E5|E5]; [tauto|].
  match goal with |- context [if ?g then _ else UB] => destruct g eqn:G end.
  - assert (1 <= Z.to_nat nb) by lia.
    rewrite setBlock_ok by (cbn; nia). cbn [obind of_opt rows cols mzero at_].
    repeat (split; [assumption|]).
    split.
    { split; cbn [nrXStep nrUStep xDim uDim fullXDim fullUDim psA psB psd psPhi psPsi psxi rows cols at_ mzero mident vsize vget vconst];
        try congruence; try lia.
      - intros i j Hi Hj. rewrite !Nat.sub_0_r.
        rewrite !(proj2 (Nat.leb_le _ _)) by lia. rewrite !(proj2 (Nat.ltb_lt _ _)) by lia. reflexivity. }
    cbn [isUpdated nrXStep nrUStep xDim uDim fullXDim fullUDim psA psB psd psPhi psPsi psxi x0 rows cols at_ mzero mident vsize vget vconst].
    repeat (split; [reflexivity|]).
    split; [|split; [reflexivity|split; [reflexivity|reflexivity]]].
    intros i j Hi Hj. rewrite (proj2 (Nat.ltb_ge i (0 + cols s))) by lia.
    rewrite andb_false_r. reflexivity.
  - cbn. repeat split; assumption.
Qed.

(** the entries of Phi x + Psi U + xi *)
Lemma preview_ok ps x U : ps_wf ps -> vsize x = xDim ps -> vsize U = fullUDim ps ->
  preview ps x U = Some (Vec (fullXDim ps) (fun r =>
     (sum (xDim ps) (fun j => at_ (psPhi ps) r j * vget x j)
      + sum (fullUDim ps) (fun c => at_ (psPsi ps) r c * vget U c) + vget (psxi ps) r)%Qc)).
Proof.
  intros W Hx HU. unfold preview.
  rewrite mvmul_ok by (rewrite (wf_Phc ps W); congruence). cbn [obind].
  rewrite mvmul_ok by (rewrite (wf_Psc ps W); congruence). cbn [obind].
  rewrite vadd_ok by (cbn; rewrite (wf_Phr ps W), (wf_Psr ps W); reflexivity). cbn [obind vsize vget].
  rewrite vadd_ok by (cbn; rewrite (wf_Phr ps W), (wf_xi ps W); reflexivity). cbn [obind vsize vget].
  rewrite (wf_Phr ps W), (wf_Phc ps W), (wf_Psc ps W). reflexivity.
Qed.

(** one row of Psi times U, in step/component form *)
Lemma psi_row ps U k i : ps_wf ps -> ps_rep ps -> k < nrXStep ps -> i < xDim ps ->
  sum (fullUDim ps) (fun c => at_ (psPsi ps) (k * xDim ps + i) c * U c)%Qc
  = sum (nrUStep ps * uDim ps) (fun c => PsiB (xDim ps) (at_ (psA ps)) (at_ (psB ps)) k (c / uDim ps) i (c mod uDim ps) * U c)%Qc.
Proof.
  intros W R Hk Hi. rewrite (wf_fu ps W), Nat.mul_comm. apply sum_ext; intros c Hc.
  destruct (blk_div' (uDim ps) (nrUStep ps) c Hc) as [l [j [Hl [Hj ->]]]].
  rewrite (rep_Psi ps R) by assumption.
  rewrite blk_quot, blk_rem by assumption. reflexivity.
Qed.

Lemma affine_state ps x U k i : ps_wf ps -> ps_rep ps -> k < nrXStep ps -> i < xDim ps ->
  (sum (xDim ps) (fun j => at_ (psPhi ps) (k * xDim ps + i) j * x j)
   + sum (fullUDim ps) (fun c => at_ (psPsi ps) (k * xDim ps + i) c * U c)
   + vget (psxi ps) (k * xDim ps + i))%Qc
  = state_of ps x U k i.
Proof.
  intros W R Hk Hi. unfold state_of.
  rewrite <- (state_at_affine (xDim ps) (uDim ps) (nrUStep ps)) by (rewrite (wf_nx ps W) in Hk; try lia; assumption).
  rewrite psi_row by assumption. rewrite (rep_xi ps R) by assumption.
  f_equal. f_equal. apply sum_ext; intros j Hj. rewrite (rep_Phi ps R) by assumption. reflexivity.
Qed.

(** causality of the recursion itself *)
Lemma state_at_causal n m A B d x U U' k :
  (forall c, c < k * m -> U c = U' c) ->
  forall i, state_at n m A B d x U k i = state_at n m A B d x U' k i.
Proof.
  induction k as [|k IH]; intros H i; cbn [state_at]; [reflexivity|].
  f_equal. f_equal.
  - apply sum_ext; intros j Hj. rewrite IH; [reflexivity|]. intros c Hc. apply H. nia.
  - apply sum_ext; intros j Hj. rewrite H by nia. reflexivity.
Qed.

Lemma state_at_ext n m A B d x x' U U' k :
  (forall i, i < n -> x i = x' i) -> (forall c, c < k * m -> U c = U' c) ->
  forall i, i < n -> state_at n m A B d x U k i = state_at n m A B d x' U' k i.
Proof.
  intros Hx. induction k as [|k IH]; intros HU i Hi; cbn [state_at]; [apply Hx; exact Hi|].
  f_equal. f_equal.
  - apply sum_ext; intros j Hj. rewrite IH; [reflexivity| |exact Hj]. intros c Hc. apply HU. nia.
  - apply sum_ext; intros j Hj. rewrite HU by nia. reflexivity.
Qed.

(** ** Histories *)

(** the protocol of C04: models and initial states of the current size *)
Definition ps_op_ok (ps : psys) (o : ps_op) : Prop :=
  match o with
  | PSystem s c b x n => system ps s c b x n <> UB
  | PXInit x => vsize x = xDim ps
  | PSetModel A B d => rows A = xDim ps /\ cols A = xDim ps /\ rows B = xDim ps /\ cols B = uDim ps /\ vsize d = xDim ps
  | _ => True
  end.
Fixpoint ps_hist_ok (ps : psys) (h : list ps_op) : Prop :=
  match h with
  | [] => True
  | o :: t => ps_op_ok ps o /\
      match ps_step ps o with Ok s | Throw _ s => ps_hist_ok s t | UB => True end
  end.

(** the same as a test, for the examples *)
Definition ps_op_okb (ps : psys) (o : ps_op) : bool :=
  match o with
  | PSystem s c b x n => match system ps s c b x n with UB => false | _ => true end
  | PXInit x => Nat.eqb (vsize x) (xDim ps)
  | PSetModel A B d => Nat.eqb (rows A) (xDim ps) && Nat.eqb (cols A) (xDim ps) && Nat.eqb (rows B) (xDim ps)
       && Nat.eqb (cols B) (uDim ps) && Nat.eqb (vsize d) (xDim ps)
  | _ => true
  end.
Fixpoint ps_hist_okb (ps : psys) (h : list ps_op) : bool :=
  match h with
  | [] => true
  | o :: t => ps_op_okb ps o &&
      match ps_step ps o with Ok s | Throw _ s => ps_hist_okb s t | UB => true end
  end.
Lemma ps_hist_okb_ok h : forall ps, ps_hist_okb ps h = true -> ps_hist_ok ps h.
Proof.
  induction h as [|o t IH]; intros ps H; cbn in *; [exact I|].
  apply andb_true_iff in H. destruct H as [H1 H2]. split.
  - destruct o; cbn in *; try exact I.
    + intro E. rewrite E in H1. discriminate.
    + apply Nat.eqb_eq. exact H1.
    + rewrite !andb_true_iff, !Nat.eqb_eq in H1. tauto.
  - destruct (ps_step ps o); try (apply IH; exact H2). exact I.
Qed.

Definition ps_inv (ps : psys) : Prop := ps_wf ps /\ vsize (x0 ps) = xDim ps.

Lemma xInit_wf ps x : ps_wf ps -> ps_wf (ps_xInit ps x).
Proof. intros []. split; cbn; assumption. Qed.
Lemma clear_wf ps : ps_wf ps -> ps_wf (ps_clearUpdated ps).
Proof. intros []. split; cbn; assumption. Qed.
Lemma setModel_wf ps A B d : ps_wf ps ->
  rows A = xDim ps /\ cols A = xDim ps /\ rows B = xDim ps /\ cols B = uDim ps /\ vsize d = xDim ps ->
  ps_wf (ps_setModel ps A B d).
Proof. intros [] [? [? [? [? ?]]]]. split; cbn; assumption. Qed.

Lemma system_inv ps s c b x n ps' : system ps s c b x n = Ok ps' -> ps_inv ps'.
Proof.
  intro E. pose proof (system_cases ps s c b x n) as H. rewrite E in H.
  destruct H as [H1 [H2 [H3 [H4 [H5 [W [H6 [H7 [H8 [H9 [H10 [H11 H12]]]]]]]]]]]].
  split; [exact W|]. rewrite H11, H7. congruence.
Qed.

Lemma ps_run_inv h : forall ps, ps_inv ps -> ps_hist_ok ps h ->
  exists ps', ps_run ps h = Some ps' /\ ps_inv ps'.
Proof.
  induction h as [|o t IH]; intros ps I H.
  - exists ps. split; [reflexivity|exact I].
  - cbn [ps_run ps_hist_ok] in *. destruct H as [Ho Ht].
    assert (K : exists ps1, (ps_step ps o = Ok ps1 \/ (exists e, ps_step ps o = Throw e ps1)) /\ ps_inv ps1).
    { destruct I as [W X]. destruct o as [s c b x n|x|A B d| | |]; cbn [ps_step ps_op_ok] in *.
      - destruct (system ps s c b x n) as [ps1|e ps1|] eqn:E; [| |congruence].
        + exists ps1. split; [left; reflexivity|]. eapply system_inv; exact E.
        + exists ps. pose proof (system_cases ps s c b x n) as H. rewrite E in H.
          destruct H as [_ [-> _]]. split; [right; exists e; reflexivity|]. split; assumption.
      - eexists. split; [left; reflexivity|]. split; [apply xInit_wf; exact W|exact Ho].
      - eexists. split; [left; reflexivity|]. split; [apply setModel_wf; assumption|exact X].
      - eexists. split; [left; reflexivity|]. split; [apply clear_wf; exact W|exact X].
      - destruct (updateSystem_ok ps W) as [ps' [E [W' [_ [_ [_ [_ [Hx [_ [_ [_ [H0 _]]]]]]]]]]]].
        rewrite E. exists ps'. split; [left; reflexivity|]. split; [exact W'|congruence].
      - unfold ensureUpdated. destruct (isUpdated ps).
        + exists ps. split; [left; reflexivity|]. split; assumption.
        + destruct (updateSystem_ok ps W) as [ps' [E [W' [_ [_ [_ [_ [Hx [_ [_ [_ [H0 _]]]]]]]]]]]].
          rewrite E. exists ps'. split; [left; reflexivity|]. split; [exact W'|congruence]. }
    destruct K as [ps1 [K I1]].
    destruct K as [K|[e K]]; rewrite K in Ht |- *; apply IH; assumption.
Qed.

(** a preview system whose matrices are current never differs after a further update *)
Lemma update_idem ps : ps_wf ps -> ps_rep ps -> isUpdated ps = true ->
  exists ps', updateSystem ps = Some ps' /\ ps_same ps ps'.
Proof.
  intros W R U. destruct (updateSystem_ok ps W) as [ps' [E [W' [R' [U' [F1 [F2 [F3 [F4 [F5 [F6 [F7 [F8 [F9 F10]]]]]]]]]]]]]].
  exists ps'. split; [exact E|].
  unfold ps_same. rewrite F1, F2, F3, F4, F5, F6, F7, F8, F9, F10.
  repeat (split; [try congruence; try apply meq_refl; try apply veq_refl|]).
  - rewrite (wf_Phr ps W), (wf_Phr ps' W'). congruence.
  - rewrite (wf_Phc ps W), (wf_Phc ps' W'). congruence.
  - intros i j Hi Hj. rewrite (wf_Phr ps W), (wf_fx ps W), Nat.mul_comm in Hi. rewrite (wf_Phc ps W) in Hj.
    destruct (blk_div' _ _ _ Hi) as [k [i' [Hk [Hi' ->]]]].
    rewrite (rep_Phi ps R) by assumption.
    rewrite <- F3 in *. rewrite <- F2 in *. rewrite <- F8. rewrite (rep_Phi ps' R') by assumption. reflexivity.
  - rewrite (wf_Psr ps W), (wf_Psr ps' W'). congruence.
  - rewrite (wf_Psc ps W), (wf_Psc ps' W'). congruence.
  - intros i j Hi Hj. rewrite (wf_Psr ps W), (wf_fx ps W), Nat.mul_comm in Hi.
    rewrite (wf_Psc ps W), (wf_fu ps W), Nat.mul_comm in Hj.
    destruct (blk_div' _ _ _ Hi) as [k [i' [Hk [Hi' ->]]]].
    destruct (blk_div' _ _ _ Hj) as [l [j' [Hl [Hj' ->]]]].
    rewrite (rep_Psi ps R) by assumption.
    rewrite <- F3, <- F4 in *. rewrite <- F2, <- F1 in *. rewrite <- F8, <- F9.
    rewrite (rep_Psi ps' R') by assumption. reflexivity.
  - rewrite (wf_xi ps W), (wf_xi ps' W'). congruence.
  - intros i Hi. rewrite (wf_xi ps W), (wf_fx ps W), Nat.mul_comm in Hi.
      destruct (blk_div' _ _ _ Hi) as [k [i' [Hk [Hi' ->]]]].
      rewrite (rep_xi ps R) by assumption.
      rewrite <- F3 in *. rewrite <- F2 in *. rewrite <- F8, <- F10. rewrite (rep_xi ps' R') by assumption. reflexivity.
Qed.

Lemma dims_fit_bool s c nb : (0 < nb)%Z ->
  fits_int (Z.to_nat nb + 1) && fits_int (cols s) && fits_int (cols c)
        && fits_int (cols s * (Z.to_nat nb + 1)) && fits_int (cols c * Z.to_nat nb) = true
  <-> dimensions_fit s c nb.
Proof.
  intro H. unfold dimensions_fit, fits_int, INT_MAX.
  rewrite !andb_true_iff, !Z.leb_le. rewrite !Nat2Z.inj_mul, !Nat2Z.inj_add.
  rewrite !Z2Nat.id by lia. cbn [Z.of_nat Pos.of_succ_nat]. tauto.
Qed.

Lemma wf_previews ps : ps_wf ps -> ps_rep ps ->
  previews ps (xDim ps) (uDim ps) (nrUStep ps) (psA ps) (psB ps) (psd ps).
Proof.
  intros W R. unfold previews. rewrite <- (wf_nx ps W), <- (wf_fx ps W), <- (wf_fu ps W).
  split; [apply W|]. split; [apply W|]. split; [apply W|]. split; [apply W|]. split; [apply W|].
  intros x U k i Hk Hi. apply affine_state; try assumption. rewrite (wf_nx ps W). lia.
Qed.

(** ** Ready systems: the hypotheses used by the theorems on constraints and costs *)

Lemma previews_Psi ps n m N A B d k l i j : previews ps n m N A B d ->
  k <= N -> l < N -> i < n -> j < m ->
  at_ (psPsi ps) (k * n + i) (l * m + j) = PsiB n (at_ A) (at_ B) k l i j.
Proof.
  intros [_ [_ [_ [_ [_ P]]]]] Hk Hl Hi Hj.
  assert (Hc : l * m + j < m * N) by nia.
  set (V := fun c => if Nat.eqb c (l * m + j) then 1%Qc else 0%Qc).
  pose proof (P (fun _ => 0%Qc) V k i Hk Hi) as E1.
  pose proof (P (fun _ => 0%Qc) (fun _ => 0%Qc) k i Hk Hi) as E0.
  rewrite <- (state_at_affine n m N) in E0, E1 by assumption.
  assert (S0 : forall (F : nat -> Qc) q, sum q (fun j => F j * 0)%Qc = 0%Qc)
    by (intros; apply sum_zero; intros; ring).
  assert (SV : forall F : nat -> Qc, sum (m * N) (fun c => F c * V c)%Qc = F (l * m + j)).
  { intro F. rewrite (sum_ext _ _ (fun c => if Nat.eqb c (l * m + j) then F c else 0%Qc)).
    - apply sum_delta. exact Hc.
    - intros c _. unfold V. destruct (Nat.eqb c (l * m + j)); ring. }
  rewrite (Nat.mul_comm N m) in E0, E1. rewrite !S0 in E0. rewrite !S0, !SV in E1.
  rewrite blk_quot, blk_rem in E1 by exact Hj.
  assert (X : (forall a b c d, 0 + 0 + c = 0 + 0 + d -> 0 + a + c = 0 + b + d -> a = b)%Qc).
  { clear. intros. qc_lra. }
  exact (X _ _ _ _ E0 E1).
Qed.

Lemma previews_Phi ps n m N A B d k i j : previews ps n m N A B d ->
  k <= N -> i < n -> j < n ->
  at_ (psPhi ps) (k * n + i) j = powA n (at_ A) k i j.
Proof.
  intros [_ [_ [_ [_ [_ P]]]]] Hk Hi Hj.
  set (V := fun c => if Nat.eqb c j then 1%Qc else 0%Qc).
  pose proof (P V (fun _ => 0%Qc) k i Hk Hi) as E1.
  pose proof (P (fun _ => 0%Qc) (fun _ => 0%Qc) k i Hk Hi) as E0.
  rewrite <- (state_at_affine n m N) in E0, E1 by assumption.
  assert (S0 : forall (F : nat -> Qc) q, sum q (fun j => F j * 0)%Qc = 0%Qc)
    by (intros; apply sum_zero; intros; ring).
  assert (SV : forall F : nat -> Qc, sum n (fun c => F c * V c)%Qc = F j).
  { intro F. rewrite (sum_ext _ _ (fun c => if Nat.eqb c j then F c else 0%Qc)).
    - apply sum_delta. exact Hj.
    - intros c _. unfold V. destruct (Nat.eqb c j); ring. }
  rewrite !S0 in E0. rewrite !S0, !SV in E1.
  assert (X : (forall a b c d, 0 + 0 + c = 0 + 0 + d -> a + 0 + c = b + 0 + d -> a = b)%Qc).
  { clear. intros. qc_lra. }
  exact (X _ _ _ _ E0 E1).
Qed.

Lemma previews_xi ps n m N A B d k i : previews ps n m N A B d ->
  k <= N -> i < n ->
  vget (psxi ps) (k * n + i) = xiB n (at_ A) (vget d) k i.
Proof.
  intros [_ [_ [_ [_ [_ P]]]]] Hk Hi.
  pose proof (P (fun _ => 0%Qc) (fun _ => 0%Qc) k i Hk Hi) as E0.
  rewrite <- (state_at_affine n m N) in E0 by assumption.
  assert (S0 : forall (F : nat -> Qc) q, sum q (fun j => F j * 0)%Qc = 0%Qc)
    by (intros; apply sum_zero; intros; ring).
  rewrite !S0 in E0.
  assert (X : (forall c d, 0 + 0 + c = 0 + 0 + d -> c = d)%Qc) by (clear; intros; qc_lra).
  exact (X _ _ E0).
Qed.

Lemma wf_ready ps : ps_wf ps -> ps_rep ps -> vsize (x0 ps) = xDim ps -> ready ps.
Proof.
  intros W R X. split; try apply W; [exact X|]. apply wf_previews; assumption.
Qed.

(** an updated system with 2 states, 1 control and 3 steps, for the examples *)
Definition exps : psys :=
  match ps_new exA exB exd exx0 3 with
  | Ok p => match updateSystem p with Some q => q | None => p end
  | _ => ps_default
  end.
Lemma built_ready s c b x n p q : ps_new s c b x n = Ok p -> updateSystem p = Some q -> ready q.
Proof.
  intros E U. apply system_inv in E. destruct E as [W X].
  destruct (updateSystem_ok p W) as [q' [U' [W2 [R2 [_ [F1 [F2 [F3 [F4 [F5 [F6 [F7 _]]]]]]]]]]]].
  rewrite U' in U. injection U as <-. apply wf_ready; try assumption. congruence.
Qed.
Lemma exps_ready : ready exps.
Proof.
  unfold exps. destruct (ps_new exA exB exd exx0 3) as [p|e p|] eqn:E; [|discriminate E|discriminate E].
  pose proof E as E'. apply system_inv in E'. destruct E' as [W X].
  destruct (updateSystem_ok p W) as [q [U _]]. rewrite U. eapply built_ready; eassumption.
Qed.
