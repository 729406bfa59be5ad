(** ConstraintProofs.v -- what the rows computed by the constraint classes mean. *)
From Verif Require Import Base Eigen Spec Preview SpecApi AutoSpan Constraints PreviewProofs.

(** ** Facts about ready systems *)
Section Ready.
Variables (ps : psys) (R : ready ps).

Lemma rd_Phr : rows (psPhi ps) = fullXDim ps.
Proof. rewrite (rd_fx ps R), (rd_nx ps R). exact (proj1 (rd_pv ps R)). Qed.
Lemma rd_Phc : cols (psPhi ps) = xDim ps.
Proof. exact (proj1 (proj2 (rd_pv ps R))). Qed.
Lemma rd_Psr : rows (psPsi ps) = fullXDim ps.
Proof. rewrite (rd_fx ps R), (rd_nx ps R). exact (proj1 (proj2 (proj2 (rd_pv ps R)))). Qed.
Lemma rd_Psc : cols (psPsi ps) = fullUDim ps.
Proof. rewrite (rd_fu ps R). exact (proj1 (proj2 (proj2 (proj2 (rd_pv ps R))))). Qed.
Lemma rd_xis : vsize (psxi ps) = fullXDim ps.
Proof. rewrite (rd_fx ps R), (rd_nx ps R). exact (proj1 (proj2 (proj2 (proj2 (proj2 (rd_pv ps R)))))). Qed.

(** row [r] of Phi x + Psi U + xi *)
Definition aff (x U : nat -> Qc) (r : nat) : Qc :=
  (sum (xDim ps) (fun j => at_ (psPhi ps) r j * x j)
   + sum (fullUDim ps) (fun c => at_ (psPsi ps) r c * U c) + vget (psxi ps) r)%Qc.

Lemma aff_state x U k i : k < nrXStep ps -> i < xDim ps -> aff x U (k * xDim ps + i) = state_of ps x U k i.
Proof.
  intros Hk Hi. unfold aff. rewrite (rd_fu ps R).
  apply (proj2 (proj2 (proj2 (proj2 (proj2 (rd_pv ps R)))))); [|exact Hi].
  rewrite (rd_nx ps R) in Hk. lia.
Qed.

Lemma aff_stacked x U r : r < fullXDim ps -> aff x U r = stacked_state ps x U r.
Proof.
  intro Hr. rewrite (rd_fx ps R), Nat.mul_comm in Hr.
  destruct (blk_div' _ _ _ Hr) as [k [i [Hk [Hi ->]]]].
  rewrite aff_state by assumption. unfold stacked_state. rewrite blk_quot, blk_rem by exact Hi. reflexivity.
Qed.

Lemma rd_shift k l i j : k < nrUStep ps -> S l < nrUStep ps -> i < xDim ps -> j < uDim ps ->
  at_ (psPsi ps) (S k * xDim ps + i) (S l * uDim ps + j) = at_ (psPsi ps) (k * xDim ps + i) (l * uDim ps + j).
Proof.
  intros Hk Hl Hi Hj. rewrite !(previews_Psi ps _ _ _ _ _ _ _ _ _ _ (rd_pv ps R)) by lia.
  apply PsiB_shift.
Qed.
Lemma rd_upper k l i j : k <= l -> l < nrUStep ps -> i < xDim ps -> j < uDim ps ->
  at_ (psPsi ps) (k * xDim ps + i) (l * uDim ps + j) = 0%Qc.
Proof.
  intros Hk Hl Hi Hj. rewrite (previews_Psi ps _ _ _ _ _ _ _ _ _ _ (rd_pv ps R)) by lia.
  apply PsiB_upper. exact Hk.
Qed.

(** a linear combination of rows *)
Lemma comb p (e : nat -> Qc) (rho : nat -> nat) x U :
  (sum (xDim ps) (fun j => sum p (fun q => e q * at_ (psPhi ps) (rho q) j) * x j)
   + sum (fullUDim ps) (fun c => sum p (fun q => e q * at_ (psPsi ps) (rho q) c) * U c)
   + sum p (fun q => e q * vget (psxi ps) (rho q)))%Qc
  = sum p (fun q => e q * aff x U (rho q))%Qc.
Proof.
  assert (G : forall M (P : nat -> nat -> Qc) (v : nat -> Qc),
    sum M (fun c => sum p (fun q => e q * P (rho q) c) * v c)%Qc
    = sum p (fun q => e q * sum M (fun c => P (rho q) c * v c))%Qc).
  { intros M P v.
    rewrite (sum_ext M _ (fun c => sum p (fun q => e q * P (rho q) c * v c)%Qc)).
    2:{ intros c _. rewrite sum_scal_r. reflexivity. }
    rewrite sum_swap. apply sum_ext; intros q _. rewrite <- sum_scal_l. apply sum_ext; intros; ring. }
  rewrite !G. rewrite <- !sum_add. apply sum_ext; intros q _. unfold aff. ring.
Qed.

End Ready.

(** ** One row of a constraint *)

(** row [r] of ([Y] [A] | z) and of (A | b) stands for "lin x U  compared with  rhs" *)
Definition trow_ok (ps : psys) (A : mx) (b : vec ext) (Y : mx) (z : vec ext) (r : nat)
    (lin : (nat -> Qc) -> (nat -> Qc) -> Qc) (rhs : ext) : Prop :=
  exists k, vget z r = ext_sub rhs k /\
    vget b r = ext_sub (vget z r) (sum (xDim ps) (fun j => at_ Y r j * vget (x0 ps) j)%Qc) /\
    forall x U, (sum (xDim ps) (fun j => at_ Y r j * x j)
                 + sum (fullUDim ps) (fun c => at_ A r c * U c) + k)%Qc = lin x U.
Definition crow_ok ps c r lin rhs := trow_ok ps (cA c) (cb c) (cY c) (cz c) r lin rhs.

Lemma cmp_sub ineq a x e : cmp ineq a (ext_sub e x) <-> cmp ineq (a + x)%Qc e.
Proof. destruct ineq; cbn; [apply q_le_ext_sub|apply q_eq_ext_sub]. Qed.

Lemma row_meaning ps c r lin rhs ineq U : crow_ok ps c r lin rhs ->
  cmp ineq (apply (fullUDim ps) (at_ (cA c)) U r) (vget (cb c) r) <-> cmp ineq (lin (vget (x0 ps)) U) rhs.
Proof.
  intros [k [Ez [Eb El]]]. rewrite Eb, Ez. rewrite !cmp_sub. rewrite <- El.
  unfold apply. match goal with |- cmp _ ?a _ <-> cmp _ ?b _ => replace a with b by ring end. tauto.
Qed.

Lemma row_meaning_ext ps c r lin rhs ineq x U : crow_ok ps c r lin rhs ->
  cmp ineq (apply (xDim ps) (at_ (cY c)) x r + apply (fullUDim ps) (at_ (cA c)) U r)%Qc (vget (cz c) r)
  <-> cmp ineq (lin x U) rhs.
Proof.
  intros [k [Ez [Eb El]]]. rewrite Ez. rewrite cmp_sub. rewrite <- El. unfold apply. tauto.
Qed.

(** sizes of the four results *)
Definition sized (ps : psys) (c : constr) : Prop :=
  rows (cA c) = nrConstr c /\ cols (cA c) = fullUDim ps /\ vsize (cb c) = nrConstr c /\
  rows (cY c) = nrConstr c /\ cols (cY c) = xDim ps /\ vsize (cz c) = nrConstr c.

(** ** The class-specific state after initializeConstraint, kept by update *)

Definition c_shape (ps : psys) (c : constr) : Prop :=
  match ck c with
  | KTraj => sized ps c /\ rows (cE c) = vsize (cf c) /\
      (if fullSizeEntry c then cols (cE c) = fullXDim ps /\ nrConstr c = rows (cE c)
       else cols (cE c) = xDim ps /\ nrConstr c = rows (cE c) * nrXStep ps)
  | KCtrl => sized ps c /\ hasBeenInit c = true /\
      (if fullSizeEntry c then
         veq (cz c) (cb c) /\ (forall i j, i < nrConstr c -> j < xDim ps -> at_ (cY c) i j = 0%Qc)
       else rows (cG c) = vsize (cf c) /\ cols (cG c) = uDim ps /\ nrConstr c = rows (cG c) * nrUStep ps /\
         (forall k l i j, k < nrUStep ps -> l < nrUStep ps -> k <> l -> i < rows (cG c) -> j < uDim ps ->
            at_ (cA c) (k * rows (cG c) + i) (l * uDim ps + j) = 0%Qc))
  | KMixed => sized ps c /\ rows (cE c) = vsize (cf c) /\ rows (cG c) = vsize (cf c) /\
      (if fullSizeEntry c then cols (cE c) = fullXDim ps /\ cols (cG c) = fullUDim ps /\ nrConstr c = rows (cE c)
       else cols (cE c) = xDim ps /\ cols (cG c) = uDim ps /\ nrConstr c = rows (cE c) * nrUStep ps /\
         (forall k l i j, k < nrUStep ps -> l < nrUStep ps -> k < l -> i < rows (cE c) -> j < uDim ps ->
            at_ (cA c) (k * rows (cE c) + i) (l * uDim ps + j) = 0%Qc))
  | KTrajB => sized ps c /\ vsize (clower c) = vsize (cupper c) /\
      Forall (fun l => l < vsize (clower c)) (lowerLines c) /\
      Forall (fun l => l < vsize (cupper c)) (upperLines c) /\
      (if fullSizeEntry c then vsize (clower c) = fullXDim ps /\
         nrConstr c = length (lowerLines c) + length (upperLines c)
       else vsize (clower c) = xDim ps /\
         nrConstr c = (length (lowerLines c) + length (upperLines c)) * nrXStep ps)
  | KCtrlB => hasBeenInit c = true /\ nrConstr c = fullUDim ps /\
      vsize (clb c) = fullUDim ps /\ vsize (cub c) = fullUDim ps /\
      (if fullSizeEntry c then True else vsize (clower c) = uDim ps /\ vsize (cupper c) = uDim ps)
  end.

(** what the rows stand for *)
Definition tb_steps (ps : psys) (c : constr) : nat := if fullSizeEntry c then 1 else nrXStep ps.
(** source of row [r] of a trajectory bound: the stacked state component it reads *)
Definition tb_src (ps : psys) (lines : list nat) (r : nat) : nat :=
  nth (r mod length lines) lines 0 + xDim ps * (r / length lines).

Definition c_lin (ps : psys) (c : constr) (r : nat) (x U : nat -> Qc) : Qc :=
  match ck c with
  | KTraj => if fullSizeEntry c then apply (fullXDim ps) (at_ (cE c)) (stacked_state ps x U) r
             else apply (xDim ps) (at_ (cE c)) (state_of ps x U (r / rows (cE c))) (r mod rows (cE c))
  | KCtrl => if fullSizeEntry c then apply (fullUDim ps) (at_ (cA c)) U r
             else apply (uDim ps) (at_ (cG c)) (control_at (uDim ps) U (r / rows (cG c))) (r mod rows (cG c))
  | KMixed => if fullSizeEntry c
              then (apply (fullXDim ps) (at_ (cE c)) (stacked_state ps x U) r + apply (fullUDim ps) (at_ (cG c)) U r)%Qc
              else (apply (xDim ps) (at_ (cE c)) (state_of ps x U (r / rows (cE c))) (r mod rows (cE c))
                    + apply (uDim ps) (at_ (cG c)) (control_at (uDim ps) U (r / rows (cE c))) (r mod rows (cE c)))%Qc
  | KTrajB => let nL := length (lowerLines c) * tb_steps ps c in
              stacked_state ps x U (if r <? nL then tb_src ps (lowerLines c) r else tb_src ps (upperLines c) (r - nL))
  | KCtrlB => 0%Qc
  end.
Definition c_rhs (ps : psys) (c : constr) (r : nat) : ext :=
  match ck c with
  | KTraj => if fullSizeEntry c then vget (cf c) r else vget (cf c) (r mod rows (cE c))
  | KCtrl => if fullSizeEntry c then vget (cb c) r else vget (cf c) (r mod rows (cG c))
  | KMixed => if fullSizeEntry c then vget (cf c) r else vget (cf c) (r mod rows (cE c))
  | KTrajB => let nL := length (lowerLines c) * tb_steps ps c in
              if r <? nL then vget (clower c) (nth (r mod length (lowerLines c)) (lowerLines c) 0)
              else vget (cupper c) (nth ((r - nL) mod length (upperLines c)) (upperLines c) 0)
  | KCtrlB => PInf
  end.

(** update changes only the results *)
Definition same_data (c c' : constr) : Prop :=
  ck c' = ck c /\ isIneq c' = isIneq c /\ nrConstr c' = nrConstr c /\ fullSizeEntry c' = fullSizeEntry c /\
  hasBeenInit c' = hasBeenInit c /\ cE c' = cE c /\ cG c' = cG c /\ cf c' = cf c /\
  clower c' = clower c /\ cupper c' = cupper c /\ lowerLines c' = lowerLines c /\ upperLines c' = upperLines c.

Lemma same_data_rows c A b Y z : same_data c (set_rows c A b Y z).
Proof. repeat split. Qed.
Lemma same_data_refl c : same_data c c.
Proof. repeat split. Qed.

Section Rows.
Variables (ps : psys) (R : ready ps).
Notation n := (xDim ps).
Notation m := (uDim ps).
Notation FU := (fullUDim ps).

(** *** trajectory constraint, per step *)
Section Traj.
Variables (E : mx) (f : vec ext).
Hypotheses (HE : cols E = n) (Hf : rows E = vsize f).
Let nl := rows E.

Definition tinv (t : nat) (s : mx * vec ext * mx * vec ext) : Prop :=
  let '(A, b, Y, z) := s in
  rows A = nl * nrXStep ps /\ cols A = FU /\ vsize b = nl * nrXStep ps /\
  rows Y = nl * nrXStep ps /\ cols Y = n /\ vsize z = nl * nrXStep ps /\
  (forall k i, k < t -> i < nl ->
    (forall c, c < FU -> at_ A (k * nl + i) c = sum n (fun q => at_ E i q * at_ (psPsi ps) (k * n + q) c)%Qc) /\
    (forall j, j < n -> at_ Y (k * nl + i) j = sum n (fun q => at_ E i q * at_ (psPhi ps) (k * n + q) j)%Qc) /\
    vget z (k * nl + i) = ext_sub (vget f i) (sum n (fun q => at_ E i q * vget (psxi ps) (k * n + q))%Qc) /\
    vget b (k * nl + i) = ext_sub (vget z (k * nl + i)) (sum n (fun j => at_ Y (k * nl + i) j * vget (x0 ps) j)%Qc)).

Lemma traj_step_ok t s : t < nrXStep ps -> tinv t s ->
  exists s', traj_step ps E f t s = Some s' /\ tinv (1 + t) s'.
Proof.
  destruct s as [[[A b] Y] z]. intros Ht [S1 [S2 [S3 [S4 [S5 [S6 I]]]]]].
  pose proof (rd_Phr ps R) as P1. pose proof (rd_Phc ps R) as P2. pose proof (rd_Psr ps R) as P3.
  pose proof (rd_Psc ps R) as P4. pose proof (rd_xis ps R) as P5. pose proof (rd_x0 ps R) as P6.
  rewrite (rd_fx ps R) in P1, P3, P5. 
  unfold traj_step. fold nl.
  rewrite block_ok by nia. cbn [obind].
  rewrite mmul_ok by (cbn; congruence). cbn [obind rows cols at_].
  rewrite setBlock_ok by (cbn; nia). cbn [obind rows cols at_].
  rewrite block_ok by nia. cbn [obind].
  rewrite mmul_ok by (cbn; congruence). cbn [obind rows cols at_].
  rewrite setBlock_ok by (cbn; nia). cbn [obind rows cols at_].
  rewrite seg_ok by nia. cbn [obind].
  rewrite mvmul_ok by (cbn; congruence). cbn [obind vsize vget].
  rewrite vesub_ok by (cbn; congruence). cbn [obind vsize vget].
  rewrite setSeg_ok by (cbn; nia). cbn [obind vsize vget].
  rewrite seg_ok by (cbn; nia). cbn [obind vsize vget].
  rewrite block_ok by (cbn; nia). cbn [obind rows cols at_].
  rewrite mvmul_ok by (cbn; congruence). cbn [obind vsize vget rows cols at_].
  rewrite vesub_ok by (cbn; congruence). cbn [obind vsize vget].
  rewrite setSeg_ok by (cbn; nia). cbn [obind vsize vget].
  eexists. split; [reflexivity|]. unfold tinv. cbn [rows cols at_ vsize vget].
  repeat (split; [assumption|]).
  intros k i Hk Hi.
  assert (EA : forall w c, c < w -> true && (0 <=? c) && (c <? w) = true).
  { intros w c Hc. cbn [andb]. rewrite (proj2 (Nat.ltb_lt c w) Hc). reflexivity. }
  assert (EB : (t * nl <=? k * nl + i) && (k * nl + i <? t * nl + nl) = Nat.eqb k t) by (apply seg_cond; assumption).
  cbn [Nat.add]. rewrite EB.
  destruct (Nat.eqb_spec k t) as [->|Ek].
  - rewrite blk_sub. rewrite (seg_cond nl t t i Hi), Nat.eqb_refl. rewrite blk_sub.
    split; [|split; [|split]].
    + intros c Hc. rewrite EA by assumption. rewrite HE, Nat.sub_0_r. reflexivity.
    + intros j Hj. rewrite EA by assumption. rewrite HE, Nat.sub_0_r. reflexivity.
    + rewrite HE. reflexivity.
    + reflexivity.
  - destruct (I k i ltac:(lia) Hi) as [I1 [I2 [I3 I4]]].
    split; [|split; [|split]].
    + intros c Hc. apply I1; assumption.
    + intros j Hj. apply I2; assumption.
    + exact I3.
    + exact I4.
Qed.
End Traj.

(** rows written as combinations of rows of the preview *)
Lemma comb_row A b Y z r p (e : nat -> Qc) rho (g : nat -> Qc) rhs :
  (forall c, c < FU -> at_ A r c = (sum p (fun q => e q * at_ (psPsi ps) (rho q) c) + g c)%Qc) ->
  (forall j, j < n -> at_ Y r j = sum p (fun q => e q * at_ (psPhi ps) (rho q) j)%Qc) ->
  vget z r = ext_sub rhs (sum p (fun q => e q * vget (psxi ps) (rho q))%Qc) ->
  vget b r = ext_sub (vget z r) (sum n (fun j => at_ Y r j * vget (x0 ps) j)%Qc) ->
  trow_ok ps A b Y z r (fun x U => sum p (fun q => e q * aff ps x U (rho q)) + sum FU (fun c => g c * U c))%Qc rhs.
Proof.
  intros HA HY Hz Hb. exists (sum p (fun q => e q * vget (psxi ps) (rho q))%Qc).
  split; [exact Hz|]. split; [exact Hb|].
  intros x U.
  rewrite <- (comb ps p e rho x U).
  rewrite (sum_ext n (fun j => at_ Y r j * x j)%Qc (fun j => sum p (fun q => e q * at_ (psPhi ps) (rho q) j) * x j)%Qc).
  2:{ intros j Hj. rewrite HY by exact Hj. reflexivity. }
  rewrite (sum_ext FU (fun c => at_ A r c * U c)%Qc
     (fun c => sum p (fun q => e q * at_ (psPsi ps) (rho q) c) * U c + g c * U c)%Qc).
  2:{ intros c Hc. rewrite HA by exact Hc. ring. }
  rewrite sum_add. ring.
Qed.

Lemma trow_ext A b Y z r lin lin' rhs :
  (forall x U, lin x U = lin' x U) -> trow_ok ps A b Y z r lin rhs -> trow_ok ps A b Y z r lin' rhs.
Proof.
  intros H [k [H1 [H2 H3]]]. exists k. split; [exact H1|]. split; [exact H2|].
  intros x U. rewrite H3. apply H.
Qed.

Lemma sum_g0 U : sum FU (fun c => 0 * U c)%Qc = 0%Qc.
Proof. apply sum_zero; intros; ring. Qed.

Lemma traj_update_ok c : ck c = KTraj -> c_shape ps c ->
  exists c', traj_update ps c = Some c' /\ same_data c c' /\ c_shape ps c' /\
    forall r, r < nrConstr c -> crow_ok ps c' r (c_lin ps c r) (c_rhs ps c r).
Proof.
  intros Hk. unfold c_shape, traj_update, c_lin, c_rhs. rewrite Hk.
  intros [Sz [Hf Hc]]. destruct (fullSizeEntry c) eqn:F.
  - destruct Hc as [HE Hnr].
    pose proof (rd_Phr ps R) as P1. pose proof (rd_Phc ps R) as P2. pose proof (rd_Psr ps R) as P3.
    pose proof (rd_Psc ps R) as P4. pose proof (rd_xis ps R) as P5. pose proof (rd_x0 ps R) as P6.
    rewrite mmul_ok by congruence. cbn [obind rows cols at_].
    rewrite mmul_ok by congruence. cbn [obind rows cols at_].
    rewrite mvmul_ok by congruence. cbn [obind vsize vget].
    rewrite vesub_ok by (cbn; congruence). cbn [obind vsize vget].
    rewrite mvmul_ok by (cbn; congruence). cbn [obind vsize vget rows cols at_].
    rewrite vesub_ok by (cbn; congruence). cbn [obind vsize vget].
    eexists. split; [reflexivity|]. split; [apply same_data_rows|].
    cbn [ck set_rows cE cf fullSizeEntry nrConstr]. rewrite Hk, F.
    split; [unfold sized; cbn; repeat split; congruence|].
    intros r Hr. unfold crow_ok, apply. cbn [set_rows cA cb cY cz].
    eapply trow_ext; [|apply (comb_row _ _ _ _ r (fullXDim ps) (at_ (cE c) r) (fun q => q) (fun _ => 0%Qc))].
    + intros x U. cbn beta. rewrite sum_g0. rewrite (sum_ext _ _ (fun j => at_ (cE c) r j * stacked_state ps x U j)%Qc).
      * ring.
      * intros q Hq. rewrite aff_stacked by assumption. reflexivity.
    + intros c0 Hc0. cbn [at_]. rewrite HE. ring.
    + intros j Hj. cbn [at_]. rewrite HE. reflexivity.
    + cbn [vget]. rewrite HE. reflexivity.
    + cbn [vget at_]. rewrite P2. reflexivity.
  - destruct Hc as [HE Hnr].
    assert (T0 : tinv (cE c) (cf c) 0 (cA c, cb c, cY c, cz c)).
    { unfold tinv. destruct Sz as [A1 [A2 [A3 [A4 [A5 A6]]]]]. rewrite <- Hnr.
      repeat (split; [assumption|]). intros; lia. }
    destruct (for_inv (tinv (cE c) (cf c)) 0 (nrXStep ps) (traj_step ps (cE c) (cf c)) _ ltac:(lia) T0) as [[[[A b] Y] z] [Es I]].
    { intros i s Hi Hs. apply traj_step_ok; try assumption; lia. }
    rewrite Es. cbn [obind]. eexists. split; [reflexivity|]. split; [apply same_data_rows|].
    destruct I as [S1 [S2 [S3 [S4 [S5 [S6 I]]]]]].
    cbn [ck set_rows cE cf fullSizeEntry nrConstr]. rewrite Hk, F.
    split; [unfold sized; cbn; repeat split; congruence|].
    intros r Hr. rewrite Hnr, Nat.mul_comm in Hr.
    destruct (blk_div' _ _ _ Hr) as [k [i [Hk' [Hi ->]]]].
    rewrite blk_quot, blk_rem by exact Hi.
    destruct (I k i Hk' Hi) as [I1 [I2 [I3 I4]]].
    unfold crow_ok. cbn [set_rows cA cb cY cz].
    eapply trow_ext; [|apply (comb_row _ _ _ _ _ n (at_ (cE c) i) (fun q => k * n + q) (fun _ => 0%Qc))].
    + intros x U. cbn beta. rewrite sum_g0. unfold apply.
      rewrite (sum_ext _ _ (fun j => at_ (cE c) i j * state_of ps x U k j)%Qc).
      * ring.
      * intros q Hq. rewrite aff_state by assumption. reflexivity.
    + intros c0 Hc0. rewrite I1 by exact Hc0. ring.
    + exact I2.
    + exact I3.
    + exact I4.
Qed.

(** *** control constraint *)

Definition ginv (G : mx) (f : vec ext) (t : nat) (s : mx * vec ext) : Prop :=
  let '(A, b) := s in
  rows A = rows G * nrUStep ps /\ cols A = FU /\ vsize b = rows G * nrUStep ps /\
  (forall k l i j, k < nrUStep ps -> l < nrUStep ps -> i < rows G -> j < m ->
     (k <> l -> at_ A (k * rows G + i) (l * m + j) = 0%Qc) /\
     (k < t -> k = l -> at_ A (k * rows G + i) (l * m + j) = at_ G i j)) /\
  (forall k i, k < t -> i < rows G -> vget b (k * rows G + i) = vget f i).

Lemma ctrl_step_ok G f t s : cols G = m -> rows G = vsize f -> t < nrUStep ps -> ginv G f t s ->
  exists s', ctrl_step ps G f t s = Some s' /\ ginv G f (1 + t) s'.
Proof.
  destruct s as [A b]. intros HG Hf Ht [S1 [S2 [S3 [I1 I2]]]].
  pose proof (rd_fu ps R) as EU.
  unfold ctrl_step. rewrite setBlock_ok by nia. cbn [obind].
  rewrite setSeg_ok by nia. cbn [obind].
  eexists. split; [reflexivity|]. unfold ginv. cbn [rows cols at_ vsize vget].
  repeat (split; [assumption|]). split.
  - intros k l i j Hk Hl Hi Hj. rewrite blk_cond by assumption.
    destruct (Nat.eqb_spec k t) as [->|Ek]; cbn [andb].
    + destruct (Nat.eqb_spec l t) as [->|El].
      * rewrite !blk_sub. split; [congruence|reflexivity].
      * split; [intros; apply (I1 t l i j); assumption|congruence].
    + split; [intros; apply (I1 k l i j); assumption|]. intros. apply (I1 k l i j); try assumption. lia.
  - intros k i Hk Hi. rewrite seg_cond by assumption.
    destruct (Nat.eqb_spec k t) as [->|Ek].
    + rewrite blk_sub. reflexivity.
    + apply I2; [lia|assumption].
Qed.

Lemma ext_sub_0 e : ext_sub e 0%Qc = e.
Proof. destruct e as [|q|]; cbn; try reflexivity. f_equal. ring. Qed.

(** rows with a zero Y and b = z *)
Lemma ctrl_row A b Y z r lin rhs : vget z r = rhs -> vget b r = rhs ->
  (forall j, j < n -> at_ Y r j = 0%Qc) ->
  (forall x U, sum FU (fun c => at_ A r c * U c)%Qc = lin x U) ->
  trow_ok ps A b Y z r lin rhs.
Proof.
  intros Hz Hb HY HL. exists 0%Qc.
  assert (H0 : forall x : nat -> Qc, sum n (fun j => at_ Y r j * x j)%Qc = 0%Qc).
  { intro x. apply sum_zero. intros j Hj. rewrite HY by exact Hj. ring. }
  rewrite H0, !ext_sub_0. split; [exact Hz|]. split; [congruence|].
  intros x U. rewrite H0, (HL x U). ring.
Qed.

(** a row with one non-zero block *)
Lemma sum_block (F : nat -> Qc) k : k < nrUStep ps ->
  (forall l j, l < nrUStep ps -> j < m -> l <> k -> F (l * m + j) = 0%Qc) ->
  sum FU F = sum m (fun j => F (k * m + j)).
Proof.
  intros Hk H. rewrite (rd_fu ps R), Nat.mul_comm, sum_blocks.
  rewrite (sum_ext _ _ (fun l => if Nat.eqb l k then sum m (fun j => F (l * m + j)) else 0%Qc)).
  - rewrite sum_delta by exact Hk. reflexivity.
  - intros l Hl. destruct (Nat.eqb_spec l k) as [->|E]; [reflexivity|].
    apply sum_zero. intros j Hj. apply H; assumption.
Qed.

Lemma ctrl_update_ok c : ck c = KCtrl -> c_shape ps c ->
  exists c', ctrl_update ps c = Some c' /\ same_data c c' /\ c_shape ps c' /\
    forall r, r < nrConstr c -> crow_ok ps c' r (c_lin ps c r) (c_rhs ps c r).
Proof.
  intros Hk. unfold c_shape, ctrl_update, c_lin, c_rhs. rewrite Hk.
  intros [Sz [Hi Hc]]. destruct (fullSizeEntry c) eqn:F.
  - exists c. split; [reflexivity|]. split; [apply same_data_refl|]. rewrite Hk, F.
    split; [repeat split; try apply Sz; try apply Hc; assumption|].
    destruct Hc as [Hz HY]. destruct Sz as [A1 [A2 [A3 [A4 [A5 A6]]]]].
    intros r Hr. apply ctrl_row.
    + apply Hz. lia.
    + reflexivity.
    + intros j Hj. apply HY; assumption.
    + intros x U. reflexivity.
  - destruct Hc as [Hf [HG [Hnr HZ]]].
    destruct Sz as [A1 [A2 [A3 [A4 [A5 A6]]]]].
    assert (T0 : ginv (cG c) (cf c) 0 (cA c, cb c)).
    { unfold ginv. rewrite <- Hnr. repeat (split; [assumption|]). split; [|intros; lia].
      intros k l i j Hk' Hl Hi' Hj. split; [intro; apply HZ; assumption|intros; lia]. }
    destruct (for_inv (ginv (cG c) (cf c)) 0 (nrUStep ps) (ctrl_step ps (cG c) (cf c)) _ ltac:(lia) T0) as [[A b] [Es I]].
    { intros i s Hi' Hs. apply ctrl_step_ok; try assumption; lia. }
    rewrite Es. cbn [obind]. eexists. split; [reflexivity|]. split; [apply same_data_rows|].
    destruct I as [S1 [S2 [S3 [I1 I2]]]].
    cbn [ck set_rows cG cf fullSizeEntry nrConstr hasBeenInit]. rewrite Hk, F.
    split.
    { unfold sized. cbn. repeat split; try congruence. intros. apply (I1 k l i j); assumption. }
    intros r Hr. rewrite Hnr, Nat.mul_comm in Hr.
    destruct (blk_div' _ _ _ Hr) as [k [i [Hk' [Hi' ->]]]].
    rewrite blk_quot, blk_rem by exact Hi'.
    unfold crow_ok. cbn [set_rows cA cb cY cz]. apply ctrl_row.
    + apply I2; assumption.
    + apply I2; assumption.
    + intros j Hj. reflexivity.
    + intros x U. rewrite (sum_block _ k Hk').
      * unfold apply, control_at. apply sum_ext; intros j Hj.
        rewrite (proj2 (I1 k k i j Hk' Hk' Hi' Hj) Hk' eq_refl). reflexivity.
      * intros l j Hl Hj Hlk. rewrite (proj1 (I1 k l i j Hk' Hl Hi' Hj)) by congruence. ring.
Qed.

(** *** mixed constraint *)

Section Mixed.
Variables (E G : mx) (f : vec ext).
Hypotheses (HE : cols E = n) (HG : cols G = m) (Hf : rows E = vsize f) (HGr : rows G = vsize f).
Let nl := rows E.

(** block (k,l) of A *)
Definition MB (k l i j : nat) : Qc :=
  (sum n (fun q => at_ E i q * at_ (psPsi ps) (k * n + q) (l * m + j)) + (if Nat.eqb k l then at_ G i j else 0))%Qc.

Lemma MB_upper k l i j : k < l -> l < nrUStep ps -> j < m -> MB k l i j = 0%Qc.
Proof using R. clear HE HG Hf HGr.
  intros H Hl Hj. unfold MB. destruct (Nat.eqb_spec k l); [lia|].
  rewrite sum_zero; [ring|]. intros q Hq. rewrite rd_upper by lia || assumption. ring.
Qed.
Lemma MB_shift k l i j : S k < nrUStep ps -> S l < nrUStep ps -> j < m -> MB (S k) (S l) i j = MB k l i j.
Proof using R. clear HE HG Hf HGr.
  intros Hk Hl Hj. unfold MB. cbn [Nat.eqb]. f_equal. apply sum_ext; intros q Hq.
  rewrite rd_shift by lia || assumption. reflexivity.
Qed.

Definition minv (t : nat) (s : mx * vec ext * mx * vec ext) : Prop :=
  let '(A, b, Y, z) := s in
  rows A = nl * nrUStep ps /\ cols A = FU /\ vsize b = nl * nrUStep ps /\
  rows Y = nl * nrUStep ps /\ cols Y = n /\ vsize z = nl * nrUStep ps /\
  (forall k l i j, k < nrUStep ps -> l < nrUStep ps -> i < nl -> j < m -> (k < t \/ k < l) ->
     at_ A (k * nl + i) (l * m + j) = MB k l i j) /\
  (forall k i, k < t -> i < nl ->
    (forall j, j < n -> at_ Y (k * nl + i) j = sum n (fun q => at_ E i q * at_ (psPhi ps) (k * n + q) j)%Qc) /\
    vget z (k * nl + i) = ext_sub (vget f i) (sum n (fun q => at_ E i q * vget (psxi ps) (k * n + q))%Qc) /\
    vget b (k * nl + i) = ext_sub (vget z (k * nl + i)) (sum n (fun j => at_ Y (k * nl + i) j * vget (x0 ps) j)%Qc)).

Lemma mixed_shift_ok t A : 1 <= t < nrUStep ps -> rows A = nl * nrUStep ps -> cols A = FU ->
  (forall k l i j, k < nrUStep ps -> l < nrUStep ps -> i < nl -> j < m -> (k < t \/ k < l \/ (k = t /\ l < 1)) ->
     at_ A (k * nl + i) (l * m + j) = MB k l i j) ->
  exists A', mixed_shift nl m t A = Some A' /\ rows A' = nl * nrUStep ps /\ cols A' = FU /\
  (forall k l i j, k < nrUStep ps -> l < nrUStep ps -> i < nl -> j < m -> (k < 1 + t \/ k < l) ->
     at_ A' (k * nl + i) (l * m + j) = MB k l i j).
Proof using R. clear HE HG Hf HGr.
  intros Ht S1 S2 I. unfold mixed_shift. pose proof (rd_fu ps R) as EU.
  destruct (for_inv (fun q P => rows P = nl * nrUStep ps /\ cols P = FU /\
    (forall k l i j, k < nrUStep ps -> l < nrUStep ps -> i < nl -> j < m -> (k < t \/ k < l \/ (k = t /\ l < q)) ->
      at_ P (k * nl + i) (l * m + j) = MB k l i j)) 1 (t + 1)
    (fun j P => b <- block P ((t - 1) * nl) ((j - 1) * m) nl m ;; setBlock P (t * nl) (j * m) nl m b) A)
    as [A' [Ea [J1 [J2 J3]]]].
  - lia.
  - repeat split; assumption.
  - intros q P Hq [J1 [J2 J3]].
    rewrite block_ok by nia. cbn [obind].
    rewrite setBlock_ok by (cbn; nia). eexists. split; [reflexivity|]. cbn [rows cols at_].
    repeat (split; [assumption|]).
    intros k l i j Hk Hl Hi Hj Hcase. rewrite blk_cond by assumption.
    destruct (Nat.eqb_spec k t) as [->|Ek]; cbn [andb].
    + destruct (Nat.eqb_spec l q) as [->|El].
      * rewrite !blk_sub. destruct q as [|q]; [lia|]. destruct t as [|t']; [lia|].
        replace (S q - 1) with q by lia. replace (S t' - 1) with t' by lia.
        rewrite J3 by lia. rewrite MB_shift by lia. reflexivity.
      * apply J3; lia.
    + apply J3; lia.
  - exists A'. repeat (split; [assumption|]).
    intros. apply J3; try assumption. lia.
Qed.

Lemma mixed_step_ok t s : 1 <= t < nrUStep ps -> minv t s ->
  exists s', mixed_step ps E f t s = Some s' /\ minv (1 + t) s'.
Proof.
  destruct s as [[[A b] Y] z]. intros Ht [S1 [S2 [S3 [S4 [S5 [S6 [IA I]]]]]]].
  pose proof (rd_Phr ps R) as P1. pose proof (rd_Phc ps R) as P2. pose proof (rd_Psr ps R) as P3.
  pose proof (rd_Psc ps R) as P4. pose proof (rd_xis ps R) as P5. pose proof (rd_x0 ps R) as P6.
  pose proof (rd_nx ps R) as P7. pose proof (rd_fu ps R) as P8.
  rewrite (rd_fx ps R) in P1, P3, P5.
  unfold mixed_step. fold nl.
  rewrite block_ok by nia. cbn [obind].
  rewrite mmul_ok by (cbn; congruence). cbn [obind rows cols at_].
  rewrite setBlock_ok by (cbn; nia). cbn [obind rows cols at_].
  rewrite block_ok by nia. cbn [obind].
  rewrite mmul_ok by (cbn; congruence). cbn [obind rows cols at_].
  rewrite setBlock_ok by (cbn; nia). cbn [obind rows cols at_].
  match goal with |- context [mixed_shift nl m t ?P] => set (A1 := P) end.
  destruct (mixed_shift_ok t A1) as [A2 [Ea [T1 [T2 T3]]]]; [exact Ht|assumption|assumption| |].
  { intros k l i j Hk Hl Hi Hj Hcase. unfold A1. cbn [at_].
    pose proof (blk_cond nl m t 0 k i l j Hi Hj) as EC. cbn [Nat.mul Nat.add] in EC. cbn [Nat.add]. rewrite EC.
    destruct (Nat.eqb_spec k t) as [->|Ek]; cbn [andb].
    - destruct (Nat.eqb_spec l 0) as [->|El].
      + rewrite blk_sub. cbn [Nat.mul Nat.add]. rewrite Nat.sub_0_r.
        unfold MB. destruct (Nat.eqb_spec t 0); [lia|]. cbn [Nat.mul Nat.add]. rewrite HE. ring.
      + apply IA; lia || assumption.
    - apply IA; lia || assumption. }
  rewrite Ea. cbn [obind].
  rewrite seg_ok by nia. cbn [obind].
  rewrite mvmul_ok by (cbn; congruence). cbn [obind vsize vget].
  rewrite vesub_ok by (cbn; congruence). cbn [obind vsize vget].
  rewrite setSeg_ok by (cbn; nia). cbn [obind vsize vget].
  rewrite seg_ok by (cbn; nia). cbn [obind vsize vget].
  rewrite block_ok by (cbn; nia). cbn [obind rows cols at_].
  rewrite mvmul_ok by (cbn; congruence). cbn [obind vsize vget rows cols at_].
  rewrite vesub_ok by (cbn; congruence). cbn [obind vsize vget].
  rewrite setSeg_ok by (cbn; nia). cbn [obind vsize vget].
  eexists. split; [reflexivity|]. unfold minv. cbn [rows cols at_ vsize vget].
  repeat (split; [assumption|]).
  intros k i Hk Hi.
  assert (EA : forall w c, c < w -> true && (0 <=? c) && (c <? w) = true).
  { intros w c Hc. cbn [andb]. rewrite (proj2 (Nat.ltb_lt c w) Hc). reflexivity. }
  assert (EB : (t * nl <=? k * nl + i) && (k * nl + i <? t * nl + nl) = Nat.eqb k t) by (apply seg_cond; assumption).
  cbn [Nat.add]. rewrite EB.
  destruct (Nat.eqb_spec k t) as [->|Ek].
  - rewrite blk_sub. rewrite (seg_cond nl t t i Hi), Nat.eqb_refl. rewrite blk_sub.
    split; [|split].
    + intros j Hj. rewrite EA by assumption. rewrite HE, Nat.sub_0_r. reflexivity.
    + rewrite HE. reflexivity.
    + reflexivity.
  - destruct (I k i ltac:(lia) Hi) as [I2 [I3 I4]].
    split; [|split].
    + intros j Hj. apply I2; assumption.
    + exact I3.
    + exact I4.
Qed.
End Mixed.

Lemma rd_Phi0 i j : i < n -> j < n -> at_ (psPhi ps) i j = if Nat.eqb i j then 1%Qc else 0%Qc.
Proof.
  intros Hi Hj. pose proof (previews_Phi ps _ _ _ _ _ _ 0 i j (rd_pv ps R)) as H.
  cbn [Nat.mul Nat.add powA] in H. apply H; lia || assumption.
Qed.
Lemma rd_xi0 i : i < n -> vget (psxi ps) i = 0%Qc.
Proof.
  intros Hi. pose proof (previews_xi ps _ _ _ _ _ _ 0 i (rd_pv ps R)) as H.
  cbn [Nat.mul Nat.add xiB] in H. apply H; lia || assumption.
Qed.

(** the row of block [k] of a per-step mixed constraint, as combination plus own control term *)
Definition gcol (G : mx) (k i c : nat) : Qc := if Nat.eqb k (c / m) then at_ G i (c mod m) else 0%Qc.

Lemma gcol_sum G k i U : k < nrUStep ps ->
  sum FU (fun c => gcol G k i c * U c)%Qc = apply m (at_ G) (control_at m U k) i.
Proof.
  intro Hk. rewrite (sum_block _ k Hk).
  - unfold apply, control_at. apply sum_ext; intros j Hj. unfold gcol.
    rewrite blk_quot, blk_rem by exact Hj. rewrite Nat.eqb_refl. reflexivity.
  - intros l j Hl Hj Hlk. unfold gcol. rewrite blk_quot by exact Hj.
    destruct (Nat.eqb_spec k l); [congruence|]. ring.
Qed.

Lemma mixed_update_ok c : ck c = KMixed -> c_shape ps c ->
  exists c', mixed_update ps c = Some c' /\ same_data c c' /\ c_shape ps c' /\
    forall r, r < nrConstr c -> crow_ok ps c' r (c_lin ps c r) (c_rhs ps c r).
Proof.
  intros Hk. unfold c_shape, mixed_update, c_lin, c_rhs. rewrite Hk.
  intros [Sz [Hf [HGr Hc]]].
  pose proof (rd_Phr ps R) as P1. pose proof (rd_Phc ps R) as P2. pose proof (rd_Psr ps R) as P3.
  pose proof (rd_Psc ps R) as P4. pose proof (rd_xis ps R) as P5. pose proof (rd_x0 ps R) as P6.
  destruct (fullSizeEntry c) eqn:F.
  - destruct Hc as [HE [HG Hnr]].
    rewrite mmul_ok by congruence. cbn [obind rows cols at_].
    rewrite madd_ok by (cbn; congruence). cbn [obind rows cols at_].
    rewrite mmul_ok by congruence. cbn [obind rows cols at_].
    rewrite mvmul_ok by congruence. cbn [obind vsize vget].
    rewrite vesub_ok by (cbn; congruence). cbn [obind vsize vget].
    rewrite mvmul_ok by (cbn; congruence). cbn [obind vsize vget rows cols at_].
    rewrite vesub_ok by (cbn; congruence). cbn [obind vsize vget].
    eexists. split; [reflexivity|]. split; [apply same_data_rows|].
    cbn [ck set_rows cE cG cf fullSizeEntry nrConstr]. rewrite Hk, F.
    split; [unfold sized; cbn; repeat split; congruence|].
    intros r Hr. unfold crow_ok, apply. cbn [set_rows cA cb cY cz].
    eapply trow_ext; [|apply (comb_row _ _ _ _ r (fullXDim ps) (at_ (cE c) r) (fun q => q) (at_ (cG c) r))].
    + intros x U. cbn beta. f_equal. apply sum_ext.
      intros q Hq. rewrite aff_stacked by assumption. reflexivity.
    + intros c0 Hc0. cbn [at_]. rewrite HE. reflexivity.
    + intros j Hj. cbn [at_]. rewrite HE. reflexivity.
    + cbn [vget]. rewrite HE. reflexivity.
    + cbn [vget at_]. rewrite P2. reflexivity.
  - destruct Hc as [HE [HG [Hnr HZ]]].
    destruct Sz as [A1 [A2 [A3 [A4 [A5 A6]]]]].
    pose proof (rd_nu ps R) as HN. pose proof (rd_fu ps R) as EU.
    rewrite Hnr in A1, A3, A4, A6.
    rewrite setBlock_ok by nia. cbn [obind].
    rewrite setBlock_ok by nia. cbn [obind].
    rewrite setSeg_ok by nia. cbn [obind].
    rewrite seg_ok by (cbn; nia). cbn [obind].
    rewrite block_ok by (cbn; nia). cbn [obind].
    rewrite mvmul_ok by (cbn; congruence). cbn [obind vsize vget rows cols at_].
    rewrite vesub_ok by (cbn; congruence). cbn [obind vsize vget].
    rewrite setSeg_ok by (cbn; nia). cbn [obind vsize vget].
    match goal with |- context [for_ 1 _ _ ?s] => set (s0 := s) end.
    assert (T0 : minv (cE c) (cG c) (cf c) 1 s0).
    { unfold s0, minv. cbn [rows cols at_ vsize vget]. repeat (split; [assumption|]). split.
      - intros k l i j Hk' Hl Hi Hj Hcase.
        pose proof (blk_cond (rows (cE c)) m 0 0 k i l j Hi Hj) as EC. cbn [Nat.mul Nat.add] in EC.
        cbn [Nat.add]. rewrite EC.
        destruct (Nat.eqb_spec k 0) as [->|Ek]; cbn [andb].
        + destruct (Nat.eqb_spec l 0) as [->|El].
          * cbn [Nat.mul Nat.add]. rewrite !Nat.sub_0_r. unfold MB. cbn [Nat.eqb Nat.mul Nat.add].
            rewrite sum_zero; [ring|]. intros q Hq.
            pose proof (rd_upper ps R 0 0 q j) as Hu. cbn [Nat.mul Nat.add] in Hu. rewrite Hu by lia. ring.
          * rewrite MB_upper by lia. apply HZ; lia || assumption.
        + rewrite MB_upper by lia. apply HZ; lia || assumption.
      - intros k i Hk' Hi. assert (k = 0) by lia. subst k. cbn [Nat.mul Nat.add].
        rewrite (proj2 (Nat.ltb_lt i (rows (cE c)))) by exact Hi. cbn [Nat.leb andb].
        rewrite !Nat.sub_0_r.
        rewrite (proj2 (Nat.ltb_lt i (rows (cE c)))) by exact Hi.
        split; [|split].
        + intros j Hj. rewrite (proj2 (Nat.ltb_lt j n)) by exact Hj. rewrite Nat.sub_0_r.
          rewrite (sum_ext n _ (fun q => if Nat.eqb q j then at_ (cE c) i q else 0%Qc)).
          { rewrite sum_delta by exact Hj. reflexivity. }
          intros q Hq. rewrite rd_Phi0 by assumption. destruct (Nat.eqb q j); ring.
        + rewrite sum_zero; [rewrite ext_sub_0; reflexivity|].
          intros q Hq. rewrite rd_xi0 by exact Hq. ring.
        + f_equal. }
    destruct (for_inv (minv (cE c) (cG c) (cf c)) 1 (nrUStep ps) (mixed_step ps (cE c) (cf c)) s0 HN T0)
      as [[[[A b] Y] z] [Es I]].
    { intros i s Hi Hs. apply mixed_step_ok; assumption. }
    rewrite Es. cbn [obind]. eexists. split; [reflexivity|]. split; [apply same_data_rows|].
    destruct I as [S1 [S2 [S3 [S4 [S5 [S6 [IA I]]]]]]].
    cbn [ck set_rows cE cG cf fullSizeEntry nrConstr]. rewrite Hk, F.
    split.
    { unfold sized; cbn; repeat split; try congruence.
      intros k l i j Hk' Hl Hkl Hi Hj. rewrite IA by (assumption || lia). apply MB_upper; assumption. }
    intros r Hr. rewrite Hnr, Nat.mul_comm in Hr.
    destruct (blk_div' _ _ _ Hr) as [k [i [Hk' [Hi ->]]]].
    rewrite blk_quot, blk_rem by exact Hi.
    destruct (I k i Hk' Hi) as [I2 [I3 I4]].
    unfold crow_ok. cbn [set_rows cA cb cY cz].
    eapply trow_ext; [|apply (comb_row _ _ _ _ _ n (at_ (cE c) i) (fun q => k * n + q) (gcol (cG c) k i))].
    + intros x U. cbn beta. rewrite gcol_sum by exact Hk'. f_equal. unfold apply. apply sum_ext.
      intros q Hq. rewrite aff_state by (assumption || rewrite (rd_nx ps R); lia). reflexivity.
    + intros c0 Hc0. rewrite EU, Nat.mul_comm in Hc0.
      destruct (blk_div' _ _ _ Hc0) as [l [j [Hl [Hj ->]]]].
      rewrite IA by (assumption || lia). unfold MB, gcol. rewrite blk_quot, blk_rem by exact Hj. reflexivity.
    + exact I2.
    + exact I3.
    + exact I4.
Qed.

(** *** trajectory bounds *)

Lemma for_list_inv {S} (P : nat -> S -> Prop) (body : nat -> S -> option S) : forall l a s,
  P a s ->
  (forall p s, p < length l -> P (a + p) s -> exists s', body (nth p l 0) s = Some s' /\ P (a + p + 1) s') ->
  exists s', for_list l body s = Some s' /\ P (a + length l) s'.
Proof.
  induction l as [|x t IH]; intros a s H0 Hs.
  - exists s. cbn. rewrite Nat.add_0_r. split; [reflexivity|exact H0].
  - destruct (Hs 0 s) as [s1 [E1 H1]]; [cbn; lia|rewrite Nat.add_0_r; exact H0|]. cbn [nth] in E1.
    cbn [for_list]. rewrite E1. cbn [obind]. rewrite Nat.add_0_r in H1.
    destruct (IH (a + 1) s1 H1) as [s2 [E2 H2]].
    + intros p s' Hp HP. replace (a + 1 + p) with (a + Datatypes.S p) in HP by lia.
      destruct (Hs (Datatypes.S p) s') as [s3 [E3 H3]]; [cbn; lia|exact HP|]. cbn [nth] in E3.
      exists s3. split; [exact E3|]. replace (a + 1 + p + 1) with (a + Datatypes.S p + 1) by lia. exact H3.
    + exists s2. split; [exact E2|]. cbn [length]. replace (a + Datatypes.S (length t)) with (a + 1 + length t) by lia. exact H2.
Qed.

(** rows [< t] are as specified by [src]/[bnd] *)
Definition binv (N : nat) (src : nat -> nat) (bnd : nat -> ext) (t : nat) (s : mx * vec ext * mx * vec ext * nat) : Prop :=
  let '(A, b, Y, z, nl) := s in
  rows A = N /\ cols A = FU /\ vsize b = N /\ rows Y = N /\ cols Y = n /\ vsize z = N /\ nl = t /\
  forall r, r < t ->
    (forall c, c < FU -> at_ A r c = at_ (psPsi ps) (src r) c) /\
    (forall j, j < n -> at_ Y r j = at_ (psPhi ps) (src r) j) /\
    vget z r = ext_sub (bnd r) (vget (psxi ps) (src r)) /\
    vget b r = ext_sub (vget z r) (sum n (fun j => at_ Y r j * vget (x0 ps) j)%Qc).

Lemma bound_row_ok N src bnd v step line t s :
  t < N -> line < vsize v -> line + n * step < fullXDim ps -> src t = line + n * step -> bnd t = vget v line ->
  binv N src bnd t s -> exists s', bound_row ps v step line s = Some s' /\ binv N src bnd (t + 1) s'.
Proof.
  destruct s as [[[[A b] Y] z] nl]. intros Ht Hl Hr Hs Hb [S1 [S2 [S3 [S4 [S5 [S6 [-> I]]]]]]].
  pose proof (rd_Phr ps R) as P1. pose proof (rd_Phc ps R) as P2. pose proof (rd_Psr ps R) as P3.
  pose proof (rd_Psc ps R) as P4. pose proof (rd_xis ps R) as P5. pose proof (rd_x0 ps R) as P6.
  unfold bound_row.
  rewrite setRow_ok by (congruence || lia). cbn [obind].
  rewrite setRow_ok by (congruence || lia). cbn [obind].
  rewrite vat_ok by assumption. cbn [obind].
  rewrite vat_ok by lia. cbn [obind].
  rewrite vset_ok by lia. cbn [obind].
  rewrite vat_ok by (cbn; lia). cbn [obind vget].
  rewrite rowDot_ok by (cbn; congruence || lia). cbn [obind rows cols at_].
  rewrite vset_ok by lia. cbn [obind].
  eexists. split; [reflexivity|]. unfold binv. cbn [rows cols at_ vsize vget].
  repeat (split; [assumption || reflexivity|]).
  intros r Hr'. rewrite Nat.eqb_refl. destruct (Nat.eqb_spec r t) as [->|Er].
  - rewrite Hs, Hb. split; [|split; [|split]]; try reflexivity.
    rewrite S5. reflexivity.
  - apply I. lia.
Qed.

Lemma bound_loop_ok N src bnd v lines steps a s :
  (forall p step, step < steps -> p < length lines ->
     nth p lines 0 < vsize v /\ nth p lines 0 + n * step < fullXDim ps /\
     src (a + step * length lines + p) = nth p lines 0 + n * step /\
     bnd (a + step * length lines + p) = vget v (nth p lines 0)) ->
  a + steps * length lines <= N ->
  binv N src bnd a s ->
  exists s', for_ 0 steps (fun step => for_list lines (bound_row ps v step)) s = Some s' /\
    binv N src bnd (a + steps * length lines) s'.
Proof.
  intros H HN I0.
  destruct (for_inv (fun t s => binv N src bnd (a + t * length lines) s) 0 steps
    (fun step => for_list lines (bound_row ps v step)) s) as [s' [E I]].
  - lia.
  - cbn. rewrite Nat.add_0_r. exact I0.
  - intros step s1 Hst I1.
    destruct (for_list_inv (binv N src bnd) (bound_row ps v step) lines (a + step * length lines) s1 I1)
      as [s2 [E2 I2]].
    + intros p s2 Hp I2. destruct (H p step ltac:(lia) Hp) as [H1 [H2 [H3 H4]]].
      apply bound_row_ok; try assumption. nia.
    + exists s2. split; [exact E2|].
      replace (a + (1 + step) * length lines) with (a + step * length lines + length lines) by lia. exact I2.
  - exists s'. split; assumption.
Qed.

Lemma trajB_update_ok c : ck c = KTrajB -> c_shape ps c ->
  exists c', trajB_update ps c = Some c' /\ same_data c c' /\ c_shape ps c' /\
    forall r, r < nrConstr c -> crow_ok ps c' r (c_lin ps c r) (c_rhs ps c r).
Proof.
  intros Hk. unfold c_shape, trajB_update, c_lin, c_rhs. rewrite Hk.
  intros [Sz [Hlu [Fl [Fu Hc]]]]. destruct Sz as [A1 [A2 [A3 [A4 [A5 A6]]]]].
  pose proof (rd_nx ps R) as HNX. pose proof (rd_fx ps R) as EX.
  set (nL := length (lowerLines c)) in *. set (nU := length (upperLines c)) in *.
  set (steps := tb_steps ps c).
  assert (Es : (if fullSizeEntry c then Nat.min 1 (nrXStep ps) else nrXStep ps) = steps).
  { unfold steps, tb_steps. destruct (fullSizeEntry c); [|reflexivity]. lia. }
  rewrite Es.
  assert (Hnr : nrConstr c = nL * steps + nU * steps).
  { unfold steps, tb_steps. destruct (fullSizeEntry c); destruct Hc as [_ ->]; lia. }
  assert (Hb : forall (v : vec ext) lines p step, vsize v = vsize (clower c) -> Forall (fun l => l < vsize v) lines ->
     step < steps -> p < length lines -> nth p lines 0 < vsize v /\ nth p lines 0 + n * step < fullXDim ps).
  { intros v lines p step Hv HF Hst Hp. rewrite Forall_forall in HF.
    assert (nth p lines 0 < vsize v) by (apply HF; apply nth_In; exact Hp).
    split; [assumption|]. unfold steps, tb_steps in Hst.
    destruct (fullSizeEntry c); destruct Hc as [Hc _].
    - assert (step = 0) by lia. subst. lia.
    - rewrite EX. nia. }
  set (src := fun r => if r <? nL * steps then tb_src ps (lowerLines c) r else tb_src ps (upperLines c) (r - nL * steps)).
  set (bnd := fun r => if r <? nL * steps then vget (clower c) (nth (r mod nL) (lowerLines c) 0)
              else vget (cupper c) (nth ((r - nL * steps) mod nU) (upperLines c) 0)).
  destruct (bound_loop_ok (nrConstr c) src bnd (clower c) (lowerLines c) steps 0 (cA c, cb c, cY c, cz c, 0))
    as [s1 [E1 I1]].
  { intros p step Hst Hp. destruct (Hb (clower c) (lowerLines c) p step eq_refl Fl Hst Hp) as [H1 H2].
    split; [exact H1|]. split; [exact H2|]. cbn [Nat.add]. fold nL in Hp |- *.
    unfold src, bnd. rewrite (proj2 (Nat.ltb_lt _ _)) by nia.
    unfold tb_src. fold nL. rewrite blk_quot, blk_rem by exact Hp. split; reflexivity. }
  { cbn [Nat.add]. fold nL. lia. }
  { unfold binv. repeat (split; [assumption || reflexivity|]). intros; lia. }
  rewrite E1. cbn [obind].
  destruct (bound_loop_ok (nrConstr c) src bnd (cupper c) (upperLines c) steps (nL * steps) s1) as [s2 [E2 I2]].
  { intros p step Hst Hp. destruct (Hb (cupper c) (upperLines c) p step (eq_sym Hlu) Fu Hst Hp) as [H1 H2].
    split; [exact H1|]. split; [exact H2|]. fold nU in Hp |- *.
    unfold src, bnd. rewrite (proj2 (Nat.ltb_ge _ _)) by lia.
    unfold tb_src. fold nU. replace (nL * steps + step * nU + p - nL * steps) with (step * nU + p) by lia.
    rewrite blk_quot, blk_rem by exact Hp. split; reflexivity. }
  { fold nU. lia. }
  { cbn [Nat.add] in I1. fold nL in I1. rewrite (Nat.mul_comm nL steps). exact I1. }
  rewrite E2. cbn [obind]. destruct s2 as [[[[A b] Y] z] nl].
  destruct I2 as [S1 [S2 [S3 [S4 [S5 [S6 [_ I]]]]]]]. fold nU in I.
  eexists. split; [reflexivity|]. split; [apply same_data_rows|].
  cbn [ck set_rows clower cupper lowerLines upperLines fullSizeEntry nrConstr]. rewrite Hk.
  split.
  { split; [|split; [exact Hlu|split; [exact Fl|split; [exact Fu|exact Hc]]]].
    unfold sized; cbn; repeat split; congruence. }
  intros r Hr. destruct (I r) as [I1' [I2' [I3' I4']]].
  { rewrite (Nat.mul_comm steps nU). lia. }
  assert (Hsrc : src r < fullXDim ps).
  { unfold src, tb_src. destruct (Nat.ltb_spec r (nL * steps)) as [L|L].
    - fold nL. rewrite Nat.mul_comm in L. destruct (blk_div' _ _ _ L) as [k [i [Hk' [Hi ->]]]].
      rewrite blk_quot, blk_rem by exact Hi.
      apply (Hb (clower c) (lowerLines c) i k eq_refl Fl Hk' Hi).
    - fold nU. assert (L' : r - nL * steps < steps * nU) by lia.
      destruct (blk_div' _ _ _ L') as [k [i [Hk' [Hi ->]]]].
      rewrite blk_quot, blk_rem by exact Hi.
      apply (Hb (cupper c) (upperLines c) i k (eq_sym Hlu) Fu Hk' Hi). }
  unfold crow_ok. cbn [set_rows cA cb cY cz].
  assert (S1e : forall F : nat -> Qc, sum 1 F = F 0) by (intro F; cbn [sum]; ring).
  eapply trow_ext; [|apply (comb_row _ _ _ _ _ 1 (fun _ => 1%Qc) (fun _ => src r) (fun _ => 0%Qc))].
  - intros x U. cbn beta. rewrite sum_g0. rewrite S1e. rewrite aff_stacked by assumption. 
    unfold src. fold nL. fold steps. ring.
  - intros c0 Hc0. rewrite S1e. rewrite I1' by exact Hc0. ring.
  - intros j Hj. rewrite S1e. rewrite I2' by exact Hj. ring.
  - rewrite S1e. rewrite I3'. unfold bnd. fold steps. f_equal. ring.
  - exact I4'.
Qed.

(** *** control bounds *)

Definition cb_lo (c : constr) (i : nat) : ext := if fullSizeEntry c then vget (clb c) i else vget (clower c) (i mod m).
Definition cb_up (c : constr) (i : nat) : ext := if fullSizeEntry c then vget (cub c) i else vget (cupper c) (i mod m).

Lemma ctrlB_update_ok c : ck c = KCtrlB -> c_shape ps c ->
  exists c', ctrlB_update ps c = Some c' /\ same_data c c' /\ c_shape ps c' /\
    forall i, i < FU -> vget (clb c') i = cb_lo c i /\ vget (cub c') i = cb_up c i.
Proof.
  intros Hk. unfold c_shape, ctrlB_update, cb_lo, cb_up. rewrite Hk.
  intros [Hi [Hnr [Hl [Hu Hc]]]]. destruct (fullSizeEntry c) eqn:F.
  - exists c. split; [reflexivity|]. split; [apply same_data_refl|]. rewrite Hk, F.
    split; [repeat split; assumption|]. intros; split; reflexivity.
  - destruct Hc as [H1 H2]. pose proof (rd_fu ps R) as EU.
    destruct (for_inv (fun t s => let '(lb, ub) := s in vsize lb = FU /\ vsize ub = FU /\
       forall k i, k < t -> i < m -> vget lb (k * m + i) = vget (clower c) i /\ vget ub (k * m + i) = vget (cupper c) i)
       0 (nrUStep ps) (ctrlB_step ps (clower c) (cupper c)) (clb c, cub c)) as [[lb ub] [E [S1 [S2 I]]]].
    + lia.
    + repeat (split; [assumption|]). intros; lia.
    + intros t [lb ub] Ht [S1 [S2 I]]. unfold ctrlB_step.
      rewrite setSeg_ok by nia. cbn [obind]. rewrite setSeg_ok by nia. cbn [obind].
      eexists. split; [reflexivity|]. cbn [vsize vget]. repeat (split; [assumption|]).
      intros k i Hk' Hi'. rewrite seg_cond by assumption.
      destruct (Nat.eqb_spec k t) as [->|Ek].
      * rewrite blk_sub. split; reflexivity.
      * apply I; [lia|assumption].
    + rewrite E. cbn [obind]. eexists. split; [reflexivity|].
      split; [repeat split|]. cbn [ck set_lbub fullSizeEntry hasBeenInit nrConstr clb cub clower cupper].
      rewrite Hk, F. split; [repeat split; assumption|].
      intros i Hi'. rewrite EU, Nat.mul_comm in Hi'. destruct (blk_div' _ _ _ Hi') as [k [j [Hk' [Hj ->]]]].
      rewrite blk_rem by exact Hj. apply I; assumption.
Qed.

End Rows.
