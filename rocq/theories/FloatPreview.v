(** FloatPreview.v -- the prediction matrices computed with rounded arithmetic: their structure is that of the exact ones,
    and with an accurate arithmetic their entries are near the exact ones. *)
From Coq Require Import Permutation Qcabs.
From Verif Require Import Base Eigen Spec Preview SpecApi PreviewProofs Floats SpecFloats FloatProofs.
Open Scope Qc_scope.

(** ** Definedness *)
Lemma f_mmul_ok F t a b : cols a = rows b ->
  f_mmul F t a b = Some (Mx (rows a) (cols b) (fun i j => F (i :: j :: t)%list nil (prods (cols a) (at_ a i) (fun k => at_ b k j)))).
Proof. intro H. unfold f_mmul. rewrite H, Nat.eqb_refl. reflexivity. Qed.
Lemma f_mmadd_ok F t a b g : cols a = rows b -> rows a = rows g -> cols b = cols g ->
  f_mmadd F t a b g = Some (Mx (rows a) (cols b) (fun i j =>
    F (i :: j :: t)%list (at_ g i j :: nil) (prods (cols a) (at_ a i) (fun k => at_ b k j)))).
Proof. intros H H1 H2. unfold f_mmadd. rewrite H, H1, H2, !Nat.eqb_refl. reflexivity. Qed.
Lemma f_mvadd_ok F t m v d : cols m = vsize v -> rows m = vsize d ->
  f_mvadd F t m v d = Some (Vec (rows m) (fun i => F (i :: t)%list (vget d i :: nil) (prods (cols m) (at_ m i) (vget v)))).
Proof. intros H H1. unfold f_mvadd. rewrite H, H1, !Nat.eqb_refl. reflexivity. Qed.
Lemma f_mvsub_ok F t d m v : cols m = vsize v -> vsize d = rows m ->
  f_mvsub F t d m v = Some (Vec (vsize d) (fun i => f_minus F (i :: t)%list (vget d i) (cols m) (at_ m i) (vget v))).
Proof. intros H H1. unfold f_mvsub. rewrite H, H1, !Nat.eqb_refl. reflexivity. Qed.

(** entries equal to their exact values *)
Lemma sum_nonneg_mul n a b : (forall i, (i < n)%nat -> 0 <= a i) -> (forall i, (i < n)%nat -> 0 <= b i) ->
  0 <= sum n (fun i => a i * b i).
Proof. intros A B. apply sum_nonneg. intros i Hi. apply qc_mul_nonneg; [apply A|apply B]; exact Hi. Qed.

Section Update.
Variables (F : arith) (ps : psys) (W : ps_wf ps).
Notation n := (xDim ps).
Notation m := (uDim ps).
Notation NX := (nrXStep ps).
Notation NU := (nrUStep ps).
Notation A := (at_ (psA ps)).
Notation B := (at_ (psB ps)).
Notation dd := (vget (psd ps)).
(** [P k r x s]: what is known of an entry [r] of the block row [k], with exact value [x] and size [s] *)
Variable P : nat -> Qc -> Qc -> Qc -> Prop.
Hypothesis P_abs : forall k x, P k x x (Qcabs x).
Hypothesis P_0 : forall k, P k 0 0 0.
Hypothesis P_mono : forall k r x s, P k r x s -> P (S k) r x s.
Hypothesis P_mul : forall k t (a r x s : nat -> Qc), (1 <= k)%nat -> (forall q, (q < n)%nat -> P k (r q) (x q) (s q)) ->
  P (S k) (F t nil (prods n a r)) (sum n (fun q => a q * x q)) (sum n (fun q => Qcabs (a q) * s q)).
Hypothesis P_add : forall k t (a r x s : nat -> Qc) c, (1 <= k)%nat -> (forall q, (q < n)%nat -> P k (r q) (x q) (s q)) ->
  P (S k) (F t (c :: nil) (prods n a r)) (sum n (fun q => a q * x q) + c) (sum n (fun q => Qcabs (a q) * s q) + Qcabs c).

Definition flinv (t : nat) (s : mx * mx * vec Qc) : Prop :=
  let '(Phi, Psi, xi) := s in
  rows Phi = (n * NX)%nat /\ cols Phi = n /\ rows Psi = (n * NX)%nat /\ cols Psi = (m * NU)%nat /\ vsize xi = (n * NX)%nat /\
  (forall k i j, (k < t)%nat -> (i < n)%nat -> (j < n)%nat ->
      P k (at_ Phi (k * n + i) j) (powA n A k i j) (powA n (mabs A) k i j)) /\
  (forall k l i j, (k < NX)%nat -> (l < NU)%nat -> (i < n)%nat -> (j < m)%nat -> ((k < t)%nat \/ (k <= l)%nat) ->
      P k (at_ Psi (k * n + i) (l * m + j)) (PsiB n A B k l i j) (PsiB n (mabs A) (mabs B) k l i j)) /\
  (forall k i, (k < t)%nat -> (i < n)%nat -> P k (vget xi (k * n + i)) (xiB n A dd k i) (xiB n (mabs A) (vabs dd) k i)) /\
  (* never written *)
  (forall i j, (i < n)%nat -> (j < n)%nat -> at_ Phi i j = if Nat.eqb i j then 1 else 0) /\
  (forall i, (i < n)%nat -> vget xi i = 0) /\
  (forall k l i j, (k < NX)%nat -> (l < NU)%nat -> (k <= l)%nat -> (i < n)%nat -> (j < m)%nat ->
      at_ Psi (k * n + i) (l * m + j) = 0).

Lemma f_psi_shift_ok t Psi : (2 <= t < NX)%nat ->
  rows Psi = (n * NX)%nat -> cols Psi = (m * NU)%nat ->
  (forall k l i j, (k < NX)%nat -> (l < NU)%nat -> (i < n)%nat -> (j < m)%nat ->
     ((k < t)%nat \/ (k <= l)%nat \/ (k = t /\ (l < 1)%nat)) ->
     P k (at_ Psi (k * n + i) (l * m + j)) (PsiB n A B k l i j) (PsiB n (mabs A) (mabs B) k l i j)) ->
  (forall k l i j, (k < NX)%nat -> (l < NU)%nat -> (k <= l)%nat -> (i < n)%nat -> (j < m)%nat ->
      at_ Psi (k * n + i) (l * m + j) = 0) ->
  exists Psi', psi_shift n m t Psi = Some Psi' /\
    rows Psi' = (n * NX)%nat /\ cols Psi' = (m * NU)%nat /\
    (forall k l i j, (k < NX)%nat -> (l < NU)%nat -> (i < n)%nat -> (j < m)%nat -> ((k < 1 + t)%nat \/ (k <= l)%nat) ->
      P k (at_ Psi' (k * n + i) (l * m + j)) (PsiB n A B k l i j) (PsiB n (mabs A) (mabs B) k l i j)) /\
    (forall k l i j, (k < NX)%nat -> (l < NU)%nat -> (k <= l)%nat -> (i < n)%nat -> (j < m)%nat ->
      at_ Psi' (k * n + i) (l * m + j) = 0).
Proof using W P_mono.
  clear P_abs P_0 P_mul P_add.
  intros Ht Hr Hc HP HZ. pose proof (wf_nx ps W) as Enx. unfold psi_shift.
  destruct (for_inv (fun q M => rows M = (n * NX)%nat /\ cols M = (m * NU)%nat /\
     (forall k l i j, (k < NX)%nat -> (l < NU)%nat -> (i < n)%nat -> (j < m)%nat ->
       ((k < t)%nat \/ (k <= l)%nat \/ (k = t /\ (l < q)%nat)) ->
       P k (at_ M (k * n + i) (l * m + j)) (PsiB n A B k l i j) (PsiB n (mabs A) (mabs B) k l i j)) /\
     (forall k l i j, (k < NX)%nat -> (l < NU)%nat -> (k <= l)%nat -> (i < n)%nat -> (j < m)%nat ->
       at_ M (k * n + i) (l * m + j) = 0)) 1%nat t
     (fun j M => b <- block M ((t - 1) * n) ((j - 1) * m) n m ;; setBlock M (t * n) (j * m) n m b) Psi)
    as [P' [E [R1 [R2 [R3 R4]]]]].
  - lia.
  - repeat split; assumption.
  - intros q M Hq [I1 [I2 [I3 I4]]].
    assert (q < NU)%nat by lia.
    rewrite block_ok by nia. cbn [obind].
    rewrite setBlock_ok by (cbn; nia). eexists. split; [reflexivity|]. cbn [rows cols at_].
    repeat (split; [assumption|]). split.
    + intros k l i j Hk Hl Hi Hj Hcase. rewrite blk_cond by assumption.
      destruct (Nat.eqb_spec k t) as [->|Ek]; cbn [andb]; [|apply I3; lia].
      destruct (Nat.eqb_spec l q) as [->|El]; [|apply I3; lia].
      rewrite !blk_sub.
      destruct q as [|q]; [lia|]. destruct t as [|t']; [lia|].
      replace (S q - 1)%nat with q by lia. replace (S t' - 1)%nat with t' by lia.
      rewrite !PsiB_shift. apply P_mono. apply I3; lia.
    + intros k l i j Hk Hl Hkl Hi Hj. rewrite blk_cond by assumption.
      destruct (Nat.eqb_spec k t) as [->|Ek]; cbn [andb]; [|apply I4; lia].
      destruct (Nat.eqb_spec l q) as [->|El]; [|apply I4; lia]. lia.
  - exists P'. repeat (split; [assumption|]). split; [|exact R4].
    intros k l i j Hk Hl Hi Hj Hcase. apply R3; lia.
Qed.

Lemma f_update_step_ok t s : (2 <= t < NX)%nat -> flinv t s ->
  exists s', f_update_step F n m (psA ps) (psd ps) t s = Some s' /\ flinv (1 + t) s'.
Proof using W P_mono P_mul P_add.
  clear P_abs P_0.
  destruct s as [[Phi Psi] xi]. intros Ht [I1 [I2 [I3 [I4 [I5 [I6 [I7 [I8 [J1 [J2 J3]]]]]]]]]].
  pose proof (wf_Ar ps W) as WAr. pose proof (wf_Ac ps W) as WAc. pose proof (wf_d ps W) as Wd.
  pose proof (wf_nu ps W) as HN. pose proof (wf_nx ps W) as Enx.
  unfold f_update_step.
  rewrite block_ok by nia. cbn [obind].
  rewrite f_mmul_ok by (cbn; congruence). cbn [obind cols at_ rows].
  rewrite setBlock_ok by (cbn; nia). cbn [obind cols at_ rows].
  rewrite block_ok by nia. cbn [obind].
  rewrite f_mmul_ok by (cbn; congruence). cbn [obind cols at_ rows].
  rewrite setBlock_ok by (cbn; nia). cbn [obind cols at_ rows].
  match goal with |- context [psi_shift n m t ?M] => set (Psi1 := M) end.
  destruct (f_psi_shift_ok t Psi1) as [Psi2 [E2 [S1 [S2 [S3 S4]]]]]; [lia|assumption|assumption| | |].
  { intros k l i j Hk Hl Hi Hj Hcase. unfold Psi1. cbn [at_].
    pose proof (blk_cond n m t 0 k i l j Hi Hj) as EC. cbn [Nat.mul Nat.add] in EC.
    cbn [Nat.add] in *. rewrite EC.
    destruct (Nat.eqb_spec k t) as [->|Ek]; cbn [andb]; [|apply I7; lia].
    destruct (Nat.eqb_spec l 0) as [->|El]; [|apply I7; lia].
    rewrite blk_sub. cbn [Nat.mul Nat.add]. rewrite Nat.sub_0_r.
    destruct t as [|t']; [lia|]. replace (S t' - 1)%nat with t' by lia.
    rewrite !PsiB_step by lia. rewrite WAc. unfold mabs at 1. apply P_mul; [lia|].
    intros q Hq. pose proof (I7 t' 0%nat q j) as H7. cbn [Nat.mul Nat.add] in H7. apply H7; lia. }
  { intros k l i j Hk Hl Hkl Hi Hj. unfold Psi1. cbn [at_].
    pose proof (blk_cond n m t 0 k i l j Hi Hj) as EC. cbn [Nat.mul Nat.add] in EC.
    cbn [Nat.add] in *. rewrite EC.
    destruct (Nat.eqb_spec k t) as [->|Ek]; cbn [andb]; [|apply J3; lia].
    destruct (Nat.eqb_spec l 0) as [->|El]; [lia|apply J3; lia]. }
  rewrite E2. cbn [obind].
  rewrite seg_ok by nia. cbn [obind].
  rewrite f_mvadd_ok by (cbn; congruence). cbn [obind vsize vget].
  rewrite setSeg_ok by (cbn; nia). cbn [obind vsize vget].
  eexists. split; [reflexivity|].
  unfold flinv. cbn [rows cols at_ vsize vget].
  repeat (split; [assumption|]). split; [|split; [|split; [|split; [|split]]]].
  - intros k i j Hk Hi Hj. pose proof (row_cond n n t k i j Hi Hj) as EC. cbn [Nat.add] in *. rewrite EC.
    destruct (Nat.eqb_spec k t) as [->|Ek]; [|apply I6; lia].
    rewrite blk_sub, Nat.sub_0_r. destruct t as [|t']; [lia|]. replace (S t' - 1)%nat with t' by lia.
    cbn [powA]. rewrite WAc. unfold mabs at 1. apply P_mul; [lia|]. intros q Hq. apply I6; lia.
  - exact S3.
  - intros k i Hk Hi. rewrite seg_cond by assumption.
    destruct (Nat.eqb_spec k t) as [->|Ek]; [|apply I8; lia].
    rewrite blk_sub. destruct t as [|t']; [lia|]. replace (S t' - 1)%nat with t' by lia.
    cbn [xiB]. rewrite WAc. unfold mabs at 1, vabs at 2. apply P_add; [lia|]. intros q Hq. apply I8; lia.
  - intros i j Hi Hj. pose proof (row_cond n n t 0 i j Hi Hj) as EC. cbn [Nat.mul Nat.add] in *. rewrite EC.
    destruct (Nat.eqb_spec 0 t); [lia|]. apply J1; assumption.
  - intros i Hi. pose proof (seg_cond n t 0 i Hi) as EC. cbn [Nat.mul Nat.add] in *. rewrite EC.
    destruct (Nat.eqb_spec 0 t); [lia|]. apply J2; assumption.
  - exact S4.
Qed.

Lemma sum_delta_r k (f : nat -> Qc) (j : nat) : (j < k)%nat ->
  sum k (fun l => f l * (if Nat.eqb l j then 1 else 0)) = f j.
Proof using.
  intro H. rewrite (sum_ext k _ (fun l => if Nat.eqb l j then f l else 0)).
  - apply sum_delta. exact H.
  - intros l _. destruct (Nat.eqb l j); ring.
Qed.
Lemma delta_abs i j : Qcabs (if Nat.eqb i j then 1 else 0) = if Nat.eqb i j then 1 else 0.
Proof using. destruct (Nat.eqb i j); apply Qcabs_pos; unfold Qcle; cbn; lra. Qed.

Lemma f_updateSystem_ok : exists ps', f_updateSystem F ps = Some ps' /\
  ps_wf ps' /\ isUpdated ps' = true /\
  nrUStep ps' = NU /\ nrXStep ps' = NX /\ xDim ps' = n /\ uDim ps' = m /\
  fullXDim ps' = fullXDim ps /\ fullUDim ps' = fullUDim ps /\ x0 ps' = x0 ps /\
  psA ps' = psA ps /\ psB ps' = psB ps /\ psd ps' = psd ps /\
  (forall k i j, (k < NX)%nat -> (i < n)%nat -> (j < n)%nat ->
      P k (at_ (psPhi ps') (k * n + i) j) (powA n A k i j) (powA n (mabs A) k i j)) /\
  (forall k l i j, (k < NX)%nat -> (l < NU)%nat -> (i < n)%nat -> (j < m)%nat ->
      P k (at_ (psPsi ps') (k * n + i) (l * m + j)) (PsiB n A B k l i j) (PsiB n (mabs A) (mabs B) k l i j)) /\
  (forall k i, (k < NX)%nat -> (i < n)%nat -> P k (vget (psxi ps') (k * n + i)) (xiB n A dd k i) (xiB n (mabs A) (vabs dd) k i)).
Proof using W P_mono P_mul P_add P_abs P_0.
  unfold f_updateSystem.
  pose proof (wf_Ar ps W) as WAr. pose proof (wf_Ac ps W) as WAc. pose proof (wf_d ps W) as Wd.
  pose proof (wf_Br ps W) as WBr. pose proof (wf_Bc ps W) as WBc.
  pose proof (wf_Phr ps W) as W1. pose proof (wf_Phc ps W) as W2.
  pose proof (wf_Psr ps W) as W3. pose proof (wf_Psc ps W) as W4. pose proof (wf_xi ps W) as W5.
  rewrite (wf_fx ps W) in W1, W3, W5. rewrite (wf_fu ps W) in W4.
  pose proof (wf_nu ps W) as HN. pose proof (wf_nx ps W) as Enx.
  rewrite setBlock_ok by nia. cbn [obind].
  rewrite setBlock_ok by nia. cbn [obind].
  rewrite setSeg_ok by nia. cbn [obind].
  match goal with |- context [for_ 2 NX _ ?s] => set (s0 := s) end.
  destruct (for_inv flinv 2%nat NX (f_update_step F n m (psA ps) (psd ps)) s0) as [[[Phi Psi] xi] [E I]].
  - lia.
  - unfold s0, flinv. cbn [rows cols at_ vsize vget]. repeat (split; [assumption|]).
    split; [|split; [|split; [|split; [|split]]]].
    + intros k i j Hk Hi Hj.
      pose proof (row_cond n n 1 k i j Hi Hj) as EC. rewrite !Nat.mul_1_l in EC. cbn [Nat.add] in *. rewrite EC.
      destruct (Nat.eqb_spec k 1) as [->|Ek].
      * rewrite Nat.mul_1_l. replace (n + i - n)%nat with i by lia. rewrite Nat.sub_0_r.
        cbn [powA]. rewrite !sum_delta_r by exact Hj. apply P_abs.
      * replace k with 0%nat by lia. cbn [Nat.mul Nat.add powA]. rewrite (wf_Ph0 ps W) by assumption.
        rewrite <- (delta_abs i j) at 3. apply P_abs.
    + intros k l i j Hk Hl Hi Hj Hcase.
      pose proof (blk_cond n m 1 0 k i l j Hi Hj) as EC. rewrite !Nat.mul_1_l in EC. cbn [Nat.mul Nat.add] in *. rewrite EC.
      destruct (Nat.eqb_spec k 1) as [->|Ek]; cbn [andb].
      * destruct (Nat.eqb_spec l 0) as [->|El].
        -- rewrite Nat.mul_1_l. replace (n + i - n)%nat with i by lia. cbn [Nat.mul Nat.add]. rewrite Nat.sub_0_r.
           rewrite !PsiB_diag. apply P_abs.
        -- rewrite (wf_Ps0 ps W) by lia. rewrite !PsiB_upper by lia. apply P_0.
      * destruct Hcase as [Hc|Hc].
        -- replace k with 0%nat by lia. rewrite (wf_Ps0 ps W) by lia. rewrite !PsiB_upper by lia. apply P_0.
        -- rewrite (wf_Ps0 ps W) by lia. rewrite !PsiB_upper by lia. apply P_0.
    + intros k i Hk Hi. pose proof (seg_cond n 1 k i Hi) as EC. rewrite !Nat.mul_1_l in EC. rewrite EC.
      destruct (Nat.eqb_spec k 1) as [->|Ek].
      * rewrite Nat.mul_1_l. replace (n + i - n)%nat with i by lia. cbn [xiB].
        rewrite !sum_zero by (intros; ring). rewrite !Qcplus_0_l. apply P_abs.
      * replace k with 0%nat by lia. cbn [Nat.mul Nat.add xiB]. rewrite (wf_xi0 ps W) by assumption. apply P_0.
    + intros i j Hi Hj. pose proof (row_cond n n 1 0 i j Hi Hj) as EC. rewrite Nat.mul_1_l in EC. cbn [Nat.mul Nat.add] in *.
      rewrite EC. cbn [Nat.eqb]. apply (wf_Ph0 ps W); assumption.
    + intros i Hi. pose proof (seg_cond n 1 0 i Hi) as EC. rewrite Nat.mul_1_l in EC. cbn [Nat.mul Nat.add] in *.
      rewrite EC. cbn [Nat.eqb]. apply (wf_xi0 ps W); assumption.
    + intros k l i j Hk Hl Hkl Hi Hj.
      pose proof (blk_cond n m 1 0 k i l j Hi Hj) as EC. rewrite !Nat.mul_1_l in EC. cbn [Nat.mul Nat.add] in *. rewrite EC.
      destruct (Nat.eqb_spec k 1) as [->|Ek]; cbn [andb]; [|apply (wf_Ps0 ps W); lia].
      destruct (Nat.eqb_spec l 0) as [->|El]; [lia|apply (wf_Ps0 ps W); lia].
  - intros i s Hi Hs. apply f_update_step_ok; [lia|exact Hs].
  - rewrite E. cbn [obind]. eexists. split; [reflexivity|].
    destruct I as [I1 [I2 [I3 [I4 [I5 [I6 [I7 [I8 [J1 [J2 J3]]]]]]]]]].
    cbn [isUpdated nrUStep nrXStep xDim uDim fullXDim fullUDim x0 psA psB psd psPhi psPsi psxi].
    split.
    { pose proof (wf_fx ps W) as Ef. pose proof (wf_fu ps W) as Eg.
      split; cbn; try assumption; try congruence. }
    repeat (split; [reflexivity|]). split; [|split].
    + exact I6.
    + intros k l i j Hk Hl Hi Hj. apply I7; try assumption. left; exact Hk.
    + exact I8.
Qed.
End Update.

(** ** Histories *)
Lemma P_any F ps : ps_wf ps -> exists ps', f_updateSystem F ps = Some ps' /\
  ps_wf ps' /\ isUpdated ps' = true /\
  nrUStep ps' = nrUStep ps /\ nrXStep ps' = nrXStep ps /\ xDim ps' = xDim ps /\ uDim ps' = uDim ps /\
  fullXDim ps' = fullXDim ps /\ fullUDim ps' = fullUDim ps /\ x0 ps' = x0 ps /\
  psA ps' = psA ps /\ psB ps' = psB ps /\ psd ps' = psd ps.
Proof.
  intro W. destruct (f_updateSystem_ok F ps W (fun _ _ _ _ => True)) as [ps' H]; try (intros; exact I).
  exists ps'. intuition.
Qed.

Lemma f_run_inv F h : forall ps, ps_inv ps -> f_hist_ok F ps h -> exists ps', f_ps_run F ps h = Some ps' /\ ps_inv ps'.
Proof.
  induction h as [|o t IH]; intros ps I H.
  - exists ps. split; [reflexivity|exact I].
  - cbn [f_ps_run f_hist_ok] in *. destruct H as [Ho Ht].
    assert (K : exists ps1, (f_ps_step F ps o = Ok ps1 \/ (exists e, f_ps_step F ps o = Throw e ps1)) /\ ps_inv ps1).
    { destruct I as [W X]. destruct o as [s c b x n|x|A B d| | |]; cbn [f_ps_step ps_step ps_op_ok] in *.
      - destruct (system ps s c b x n) as [ps1|e ps1|] eqn:E; [| |congruence].
        + exists ps1. split; [left; reflexivity|]. eapply system_inv; exact E.
        + exists ps. pose proof (system_cases ps s c b x n) as H. rewrite E in H.
          destruct H as [_ [-> _]]. split; [right; exists e; reflexivity|]. split; assumption.
      - eexists. split; [left; reflexivity|]. split; [apply xInit_wf; exact W|exact Ho].
      - eexists. split; [left; reflexivity|]. split; [apply setModel_wf; assumption|exact X].
      - eexists. split; [left; reflexivity|]. split; [apply clear_wf; exact W|exact X].
      - destruct (P_any F ps W) as [ps' [E [W' [_ [_ [_ [Hx [_ [_ [_ [H0 _]]]]]]]]]]].
        rewrite E. exists ps'. split; [left; reflexivity|]. split; [exact W'|congruence].
      - destruct (isUpdated ps).
        + exists ps. split; [left; reflexivity|]. split; assumption.
        + destruct (P_any F ps W) as [ps' [E [W' [_ [_ [_ [Hx [_ [_ [_ [H0 _]]]]]]]]]]].
          rewrite E. exists ps'. split; [left; reflexivity|]. split; [exact W'|congruence]. }
    destruct K as [ps1 [K I1]].
    destruct K as [K|[e K]]; rewrite K in Ht |- *; apply IH; assumption.
Qed.

(** ** Entries of an update with an accurate arithmetic *)
Definition phiC n A r j : Qc := powA n A (r / n) (r mod n) j.
Definition psiC n m A B r c : Qc := PsiB n A B (r / n) (c / m) (r mod n) (c mod m).
Definition xiC n A d r : Qc := xiB n A d (r / n) (r mod n).
Record fnear (u : Qc) (K : nat) (ps : psys) : Prop := {
  fn_Phi : forall r j, (r < fullXDim ps)%nat -> (j < xDim ps)%nat ->
    near u K (at_ (psPhi ps) r j) (phiC (xDim ps) (at_ (psA ps)) r j) (phiC (xDim ps) (mabs (at_ (psA ps))) r j);
  fn_Psi : forall r c, (r < fullXDim ps)%nat -> (c < fullUDim ps)%nat ->
    near u K (at_ (psPsi ps) r c) (psiC (xDim ps) (uDim ps) (at_ (psA ps)) (at_ (psB ps)) r c)
       (psiC (xDim ps) (uDim ps) (mabs (at_ (psA ps))) (mabs (at_ (psB ps))) r c);
  fn_xi : forall r, (r < fullXDim ps)%nat ->
    near u K (vget (psxi ps) r) (xiC (xDim ps) (at_ (psA ps)) (vget (psd ps)) r)
      (xiC (xDim ps) (mabs (at_ (psA ps))) (vabs (vget (psd ps))) r)
}.

Lemma affineC n m N A B d x U r : (r < n * (N + 1))%nat ->
  sum n (fun j => phiC n A r j * x j) + sum (m * N) (fun c => psiC n m A B r c * U c) + xiC n A d r
  = state_at n m A B d x U (r / n) (r mod n).
Proof.
  intro H. assert (n <> 0)%nat by (intro; subst; lia).
  rewrite <- (state_at_affine n m N).
  - rewrite (Nat.mul_comm m N). reflexivity.
  - assert (r / n < N + 1)%nat by (apply Nat.div_lt_upper_bound; assumption). lia.
  - apply Nat.mod_upper_bound. assumption.
Qed.

Lemma sum_eq_l n f g : (forall i, f i = g i) -> sum n f = sum n g.
Proof. intro H. apply sum_ext. intros; apply H. Qed.
Lemma f_update_near u F ps : accurate u F -> ps_wf ps -> exists ps', f_updateSystem F ps = Some ps' /\
  ps_wf ps' /\ isUpdated ps' = true /\
  nrUStep ps' = nrUStep ps /\ nrXStep ps' = nrXStep ps /\ xDim ps' = xDim ps /\ uDim ps' = uDim ps /\
  fullXDim ps' = fullXDim ps /\ fullUDim ps' = fullUDim ps /\ x0 ps' = x0 ps /\
  psA ps' = psA ps /\ psB ps' = psB ps /\ psd ps' = psd ps /\
  fnear u ((nrUStep ps - 1) * (xDim ps + 1)) ps'.
Proof.
  intros Ac W. pose proof (proj1 Ac) as Hu.
  destruct (f_updateSystem_ok F ps W (fun k r x s => near u ((k - 1) * (xDim ps + 1)) r x s)) as [ps' H].
  - intros k x. apply near_abs. exact Hu.
  - intro k. apply near_0. exact Hu.
  - intros k r x s N. eapply near_mono; [exact Hu|exact N|]. apply Nat.mul_le_mono_r. lia.
  - intros k t a r x s Hk N. eapply near_mono; [exact Hu| |].
    + apply (F_near_0 u Hu F t ((k - 1) * (xDim ps + 1)) (xDim ps) a a (fun q => Qcabs (a q)) r x s Ac).
      intros i Hi. change ((k - 1) * (xDim ps + 1))%nat with (0 + (k - 1) * (xDim ps + 1))%nat.
      apply near_mul; [exact Hu|apply near_abs; exact Hu|apply N; exact Hi].
    + destruct k; [lia|]. replace (S (S k) - 1)%nat with (S k) by lia. replace (S k - 1)%nat with k by lia. cbn [Nat.mul]. lia.
  - intros k t a r x s c Hk N. eapply near_mono; [exact Hu| |].
    + eapply near_eq.
      * apply (F_near_1 u Hu F t ((k - 1) * (xDim ps + 1)) (xDim ps) c c (Qcabs c) a a (fun q => Qcabs (a q)) r x s Ac).
        -- apply near_abs. exact Hu.
        -- intros i Hi. change ((k - 1) * (xDim ps + 1))%nat with (0 + (k - 1) * (xDim ps + 1))%nat.
           apply near_mul; [exact Hu|apply near_abs; exact Hu|apply N; exact Hi].
      * ring.
      * ring.
    + destruct k; [lia|]. replace (S (S k) - 1)%nat with (S k) by lia. replace (S k - 1)%nat with k by lia. cbn [Nat.mul]. lia.
  - destruct H as [E [W' [U' [F1 [F2 [F3 [F4 [F5 [F6 [F7 [F8 [F9 [F10 [N1 [N2 N3]]]]]]]]]]]]]]].
    exists ps'. repeat (split; [assumption|]).
    pose proof (wf_nx ps W) as Enx.
    split.
    + intros r j Hr Hj. rewrite F5, (wf_fx ps W), Nat.mul_comm in Hr. rewrite F3 in *. rewrite F8. unfold phiC.
      destruct (blk_div' _ _ _ Hr) as [k [i [Hk [Hi ->]]]]. rewrite blk_quot, blk_rem by exact Hi.
      eapply near_mono; [exact Hu|apply N1; assumption|]. apply Nat.mul_le_mono_r. lia.
    + intros r c Hr Hc. rewrite F5, (wf_fx ps W), Nat.mul_comm in Hr. rewrite F6, (wf_fu ps W), Nat.mul_comm in Hc.
      rewrite F3, F4. rewrite F8, F9. unfold psiC.
      destruct (blk_div' _ _ _ Hr) as [k [i [Hk [Hi ->]]]]. destruct (blk_div' _ _ _ Hc) as [l [j [Hl [Hj ->]]]].
      rewrite !blk_quot, !blk_rem by assumption.
      eapply near_mono; [exact Hu|apply N2; assumption|]. apply Nat.mul_le_mono_r. lia.
    + intros r Hr. rewrite F5, (wf_fx ps W), Nat.mul_comm in Hr. rewrite F3 in *. rewrite F8, F10. unfold xiC.
      destruct (blk_div' _ _ _ Hr) as [k [i [Hk [Hi ->]]]]. rewrite blk_quot, blk_rem by exact Hi.
      eapply near_mono; [exact Hu|apply N3; assumption|]. apply Nat.mul_le_mono_r. lia.
Qed.

(** the trajectory, with two sums of products *)
Lemma f_preview_near u F K ps x U : accurate u F -> ps_wf ps -> fnear u K ps ->
  vsize x = xDim ps -> vsize U = fullUDim ps ->
  exists X, f_preview F ps x U = Some X /\ vsize X = fullXDim ps /\
    forall r, (r < fullXDim ps)%nat -> near u (K + (1 + xDim ps + fullUDim ps)) (vget X r)
      (stacked_state ps (vget x) (vget U) r) (stacked_size ps (vget x) (vget U) r).
Proof.
  intros Ac W N Hx HU. pose proof (proj1 Ac) as Hu. unfold f_preview.
  rewrite (wf_Phc ps W), (wf_Psc ps W), (wf_Phr ps W), (wf_Psr ps W), (wf_xi ps W), Hx, HU, !Nat.eqb_refl.
  eexists. split; [reflexivity|]. split; [reflexivity|]. cbn [vsize vget]. intros r Hr.
  pose (mk := fun (M : nat -> nat -> Qc) (X S : nat -> nat -> Qc) (v : nat -> Qc) (q : nat) =>
    map (fun i => ((M r i, X r i, S r i), (v i, v i, Qcabs (v i))) : six) (seq 0 q)).
  pose (S1 := mk (at_ (psPhi ps)) (phiC (xDim ps) (at_ (psA ps))) (phiC (xDim ps) (mabs (at_ (psA ps)))) (vget x) (xDim ps)).
  pose (S2 := mk (at_ (psPsi ps)) (psiC (xDim ps) (uDim ps) (at_ (psA ps)) (at_ (psB ps)))
                (psiC (xDim ps) (uDim ps) (mabs (at_ (psA ps))) (mabs (at_ (psB ps)))) (vget U) (fullUDim ps)).
  pose (c := (vget (psxi ps) r, xiC (xDim ps) (at_ (psA ps)) (vget (psd ps)) r,
              xiC (xDim ps) (mabs (at_ (psA ps))) (vabs (vget (psd ps))) r) : tri).
  assert (G : forall M X S v q, (forall i, (i < q)%nat -> near u K (M r i) (X r i) (S r i)) -> Forall (snear u K) (mk M X S v q)).
  { intros M X S v q H. unfold mk. apply Forall_map. apply Forall_forall. intros i Hi. apply in_seq in Hi.
    unfold snear, sx, sm, tr, tx, tm. cbn [fst snd]. replace K with (K + 0)%nat by lia.
    apply near_mul; [exact Hu|apply H; lia|apply near_abs; exact Hu]. }
  assert (HS : Forall (snear u K) (S1 ++ S2)%list).
  { apply Forall_app. split; apply G; intros i Hi; [apply (fn_Phi u K ps N)|apply (fn_Psi u K ps N)]; assumption. }
  assert (HC : Forall (tnear u K) (c :: nil)).
  { constructor; [|constructor]. apply (fn_xi u K ps N). exact Hr. }
  pose proof (F_near u Hu F (r :: 285 :: nil)%nat%list K (c :: nil) (S1 ++ S2) Ac HC HS) as R.
  assert (L : length (S1 ++ S2)%list = (xDim ps + fullUDim ps)%nat).
  { rewrite app_length. unfold S1, S2, mk. rewrite !map_length, !seq_length. reflexivity. }
  rewrite L in R. cbn [length] in R.
  replace (K + (1 + (xDim ps + fullUDim ps)))%nat with (K + (1 + xDim ps + fullUDim ps))%nat in R by lia.
  rewrite !map_app, !lsum_app in R. unfold S1, S2, mk in R. rewrite !map_map in R.
  unfold sr, sx, sm, tr, tx, tm, c in R. cbn [fst snd map] in R. rewrite !lsum_seq in R. unfold lsum in R. cbn [fold_right] in R.
  pose proof Hr as Hr'. rewrite (wf_fx ps W), (wf_nx ps W) in Hr'.
  eapply near_eq; [exact R| |].
  - unfold stacked_state, state_of. rewrite <- (affineC _ _ (nrUStep ps)) by exact Hr'. rewrite <- (wf_fu ps W). ring.
  - unfold stacked_size, size_of. rewrite <- (affineC _ _ (nrUStep ps)) by exact Hr'. rewrite <- (wf_fu ps W).
    unfold vabs. ring.
Qed.
