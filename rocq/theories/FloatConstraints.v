(** FloatConstraints.v -- the rows of the constraints computed with an accurate arithmetic. *)
From Coq Require Import Permutation Qcabs.
From Verif Require Import Base Eigen Spec Preview SpecApi PreviewProofs AutoSpan Constraints ConstraintProofs SpecConstraints.
From Verif Require Import Floats SpecFloats FloatProofs FloatPreview.
Open Scope Qc_scope.

(** ** Right-hand sides *)
(** [r] is [rhs - s] *)
Definition enear (u : Qc) (k : nat) (r rhs : ext) (s m : Qc) : Prop :=
  match rhs with
  | Fin f => exists q, r = Fin q /\ near u k q (f - s) (Qcabs f + m)
  | e => r = e
  end.
Lemma enear_refl u k e : 0 <= u -> enear u k e e 0 0.
Proof.
  intro Hu. destruct e as [|f|]; cbn; try reflexivity. exists f. split; [reflexivity|].
  eapply near_eq; [apply near_abs; exact Hu| |]; ring.
Qed.
Lemma enear_mono u k k' r rhs s m : 0 <= u -> enear u k r rhs s m -> (k <= k')%nat -> enear u k' r rhs s m.
Proof.
  intros Hu N L. destruct rhs as [|f|]; cbn in *; try exact N. destruct N as [q [E N]]. exists q. split; [exact E|].
  eapply near_mono; eassumption.
Qed.
Lemma enear_eq u k r rhs s m s' m' : enear u k r rhs s m -> s = s' -> m = m' -> enear u k r rhs s' m'.
Proof. intros N <- <-. exact N. Qed.
Lemma f_minus_near u F t k e rhs s0 m0 n (a x m b y p : nat -> Qc) : accurate u F -> enear u k e rhs s0 m0 ->
  (forall i, (i < n)%nat -> near u k (a i * b i) (x i * y i) (m i * p i)) ->
  enear u (k + n + 1) (f_minus F t e n a b) rhs (s0 + sum n (fun i => x i * y i)) (m0 + sum n (fun i => m i * p i)).
Proof.
  intros Ac N HP. pose proof (proj1 Ac) as Hu. destruct rhs as [|f|]; cbn in N; try (subst e; reflexivity).
  destruct N as [q [-> N]]. cbn [f_minus enear]. eexists. split; [reflexivity|].
  eapply near_eq.
  - apply (F_near_1 u Hu F t k n q (f - s0) (Qcabs f + m0) (fun i => - a i) (fun i => - x i) m b y p Ac N).
    intros i Hi. replace (- a i * b i) with (- (a i * b i)) by ring. replace (- x i * y i) with (- (x i * y i)) by ring.
    apply near_opp. apply HP. exact Hi.
  - rewrite (sum_ext n (fun i => - x i * y i) (fun i => - (x i * y i))) by (intros; ring). rewrite sum_opp. ring.
  - ring.
Qed.

(** a combination of rows of the closed forms *)
Lemma combC n m N A B d p (e : nat -> Qc) (rho : nat -> nat) (g : nat -> Qc) x U :
  (forall q, (q < p)%nat -> (rho q < n * (N + 1))%nat) ->
  sum (m * N) (fun c => (sum p (fun q => e q * psiC n m A B (rho q) c) + g c) * U c)
  + (sum p (fun q => e q * xiC n A d (rho q)) + sum n (fun j => sum p (fun q => e q * phiC n A (rho q) j) * x j))
  = sum p (fun q => e q * state_at n m A B d x U (rho q / n) (rho q mod n)) + sum (m * N) (fun c => g c * U c).
Proof.
  intro H.
  assert (G : forall M (P : nat -> nat -> Qc) (v : nat -> Qc),
    sum M (fun c => sum p (fun q => e q * P (rho q) c) * v c) = sum p (fun q => e q * sum M (fun c => P (rho q) c * v c))).
  { intros M P v.
    rewrite (sum_ext M _ (fun c => sum p (fun q => e q * P (rho q) c * v c))).
    2:{ intros c _. rewrite sum_scal_r. reflexivity. }
    rewrite sum_swap. apply sum_ext; intros q _. rewrite <- sum_scal_l. apply sum_ext; intros; ring. }
  rewrite (sum_ext (m * N) _ (fun c => sum p (fun q => e q * psiC n m A B (rho q) c) * U c + g c * U c)) by (intros; ring).
  rewrite sum_add, !G.
  rewrite (sum_ext p (fun q => e q * state_at n m A B d x U (rho q / n) (rho q mod n))
    (fun q => e q * sum n (fun j => phiC n A (rho q) j * x j) + e q * sum (m * N) (fun c => psiC n m A B (rho q) c * U c)
              + e q * xiC n A d (rho q))).
  - rewrite !sum_add. ring.
  - intros q Hq. rewrite <- (affineC n m N) by (apply H; exact Hq). ring.
Qed.

Section Rows.
Variables (u : Qc) (F : arith) (Ac : accurate u F) (K : nat) (ps : psys) (W : ps_wf ps) (X0 : vsize (x0 ps) = xDim ps)
  (FN : fnear u K ps).
Notation n := (xDim ps).
Notation m := (uDim ps).
Notation FU := (fullUDim ps).
Notation FX := (fullXDim ps).
Notation PH := (phiC n (at_ (psA ps))).
Notation PH' := (phiC n (mabs (at_ (psA ps)))).
Notation PS := (psiC n m (at_ (psA ps)) (at_ (psB ps))).
Notation PS' := (psiC n m (mabs (at_ (psA ps))) (mabs (at_ (psB ps)))).
Notation XI := (xiC n (at_ (psA ps)) (vget (psd ps))).
Notation XI' := (xiC n (mabs (at_ (psA ps))) (vabs (vget (psd ps)))).

(** row [r] of a computed constraint: sum_q e_q X_(rho q) + sum_c g_c U_c compared with [rhs] *)
Definition frow (A : mx) (b : vec ext) (Y : mx) (z : vec ext) (r p : nat) (e : nat -> Qc) (rho : nat -> nat) (g : nat -> Qc)
    (rhs : ext) : Prop :=
  (forall c, (c < FU)%nat -> near u (K + p + 1) (at_ A r c)
     (sum p (fun q => e q * PS (rho q) c) + g c) (sum p (fun q => Qcabs (e q) * PS' (rho q) c) + Qcabs (g c))) /\
  (forall j, (j < n)%nat -> near u (K + p + 1) (at_ Y r j)
     (sum p (fun q => e q * PH (rho q) j)) (sum p (fun q => Qcabs (e q) * PH' (rho q) j))) /\
  enear u (K + p + 1) (vget z r) rhs (sum p (fun q => e q * XI (rho q))) (sum p (fun q => Qcabs (e q) * XI' (rho q))) /\
  enear u (K + p + 1 + n + 1) (vget b r) rhs
    (sum p (fun q => e q * XI (rho q)) + sum n (fun j => sum p (fun q => e q * PH (rho q) j) * vget (x0 ps) j))
    (sum p (fun q => Qcabs (e q) * XI' (rho q))
     + sum n (fun j => sum p (fun q => Qcabs (e q) * PH' (rho q) j) * Qcabs (vget (x0 ps) j))).

Definition rlin (p : nat) (e : nat -> Qc) (rho : nat -> nat) (g : nat -> Qc) (x U : nat -> Qc) : Qc :=
  sum p (fun q => e q * stacked_state ps x U (rho q)) + sum FU (fun c => g c * U c).
Definition rsize (p : nat) (e : nat -> Qc) (rho : nat -> nat) (g : nat -> Qc) (x U : nat -> Qc) : Qc :=
  sum p (fun q => Qcabs (e q) * stacked_size ps x U (rho q)) + sum FU (fun c => Qcabs (g c) * Qcabs (U c)).

Lemma fx_eq : FX = (n * (nrUStep ps + 1))%nat.
Proof using W. rewrite (wf_fx ps W), (wf_nx ps W). reflexivity. Qed.

Lemma near_err k r x s : near u k r x s -> Qcabs (r - x) <= growth u k * s.
Proof using. intros [_ H]. exact H. Qed.

(** the row as a whole *)
Lemma frow_error A b Y z r p e rho g rhs U : (forall q, (q < p)%nat -> (rho q < FX)%nat) ->
  frow A b Y z r p e rho g rhs ->
  row_error u (K + p + n + 2) (apply FU (at_ A) U r) (vget b r) (rlin p e rho g (vget (x0 ps)) U) rhs
    (rsize p e rho g (vget (x0 ps)) U).
Proof using W Ac.
  clear FN X0. pose proof (proj1 Ac) as Hu.
  intros Hr [HA [_ [_ Hb]]]. unfold row_error. destruct rhs as [|f|]; cbn [enear] in Hb; try exact Hb.
  destruct Hb as [q [Eq Nq]]. exists q. split; [exact Eq|].
  assert (NA : near u (K + p + n + 2) (apply FU (at_ A) U r)
     (sum FU (fun c => (sum p (fun q => e q * PS (rho q) c) + g c) * U c))
     (sum FU (fun c => (sum p (fun q => Qcabs (e q) * PS' (rho q) c) + Qcabs (g c)) * Qcabs (U c)))).
  { unfold apply. apply near_sum; [exact Hu|]. intros c Hc.
    eapply near_mono; [exact Hu|apply near_mul; [exact Hu|apply HA; exact Hc|apply near_abs; exact Hu]|].
    instantiate (1 := 0%nat). lia. }
  assert (Nb : near u (K + p + n + 2) q (f - (sum p (fun q => e q * XI (rho q))
      + sum n (fun j => sum p (fun q => e q * PH (rho q) j) * vget (x0 ps) j))) _)
    by (eapply near_mono; [exact Hu|exact Nq|lia]).
  pose proof (near_add u _ _ _ _ _ _ _ NA (near_opp u _ _ _ _ Nb)) as N.
  apply near_err in N.
  assert (E1 : apply FU (at_ A) U r - q - (rlin p e rho g (vget (x0 ps)) U - f) =
    apply FU (at_ A) U r + - q - (sum FU (fun c => (sum p (fun q => e q * PS (rho q) c) + g c) * U c) +
      - (f - (sum p (fun q => e q * XI (rho q)) + sum n (fun j => sum p (fun q => e q * PH (rho q) j) * vget (x0 ps) j))))).
  { unfold rlin, stacked_state, state_of. rewrite (wf_fu ps W).
    rewrite <- (combC n m (nrUStep ps)) by (intros q0 H0; rewrite <- fx_eq; apply Hr; exact H0). ring. }
  assert (E2 : rsize p e rho g (vget (x0 ps)) U + Qcabs f =
    sum FU (fun c => (sum p (fun q => Qcabs (e q) * PS' (rho q) c) + Qcabs (g c)) * Qcabs (U c)) +
    (Qcabs f + (sum p (fun q => Qcabs (e q) * XI' (rho q))
     + sum n (fun j => sum p (fun q => Qcabs (e q) * PH' (rho q) j) * Qcabs (vget (x0 ps) j))))).
  { unfold rsize, stacked_size, size_of. rewrite (wf_fu ps W).
    assert (Hr' : forall q, (q < p)%nat -> (rho q < n * (nrUStep ps + 1))%nat)
      by (intros q0 H0; rewrite <- fx_eq; apply Hr; exact H0).
    pose proof (combC n m (nrUStep ps) (mabs (at_ (psA ps))) (mabs (at_ (psB ps))) (vabs (vget (psd ps))) p
      (fun q => Qcabs (e q)) rho (fun c => Qcabs (g c)) (vabs (vget (x0 ps))) (vabs U) Hr') as H.
    unfold vabs in H |- *. rewrite <- H. ring. }
  rewrite E1, E2. exact N.
Qed.

(** the row of the controller with a free initial state *)
Lemma frow_error_ext A b Y z r p e rho g rhs x U : (forall q, (q < p)%nat -> (rho q < FX)%nat) ->
  frow A b Y z r p e rho g rhs ->
  row_error u (K + p + n + 2) (apply n (at_ Y) x r + apply FU (at_ A) U r) (vget z r) (rlin p e rho g x U) rhs
    (rsize p e rho g x U).
Proof using W Ac.
  clear FN X0. pose proof (proj1 Ac) as Hu.
  intros Hr [HA [HY [Hz _]]]. unfold row_error. destruct rhs as [|f|]; cbn [enear] in Hz; try exact Hz.
  destruct Hz as [q [Eq Nq]]. exists q. split; [exact Eq|].
  assert (NA : near u (K + p + n + 2) (apply FU (at_ A) U r)
     (sum FU (fun c => (sum p (fun q => e q * PS (rho q) c) + g c) * U c))
     (sum FU (fun c => (sum p (fun q => Qcabs (e q) * PS' (rho q) c) + Qcabs (g c)) * Qcabs (U c)))).
  { unfold apply. apply near_sum; [exact Hu|]. intros c Hc.
    eapply near_mono; [exact Hu|apply near_mul; [exact Hu|apply HA; exact Hc|apply near_abs; exact Hu]|].
    instantiate (1 := 0%nat). lia. }
  assert (NY : near u (K + p + n + 2) (apply n (at_ Y) x r)
     (sum n (fun j => sum p (fun q => e q * PH (rho q) j) * x j))
     (sum n (fun j => sum p (fun q => Qcabs (e q) * PH' (rho q) j) * Qcabs (x j)))).
  { unfold apply. apply near_sum; [exact Hu|]. intros c Hc.
    eapply near_mono; [exact Hu|apply near_mul; [exact Hu|apply HY; exact Hc|apply near_abs; exact Hu]|].
    instantiate (1 := 0%nat). lia. }
  assert (Nb : near u (K + p + n + 2) q (f - sum p (fun q => e q * XI (rho q))) _)
    by (eapply near_mono; [exact Hu|exact Nq|lia]).
  pose proof (near_add u _ _ _ _ _ _ _ (near_add u _ _ _ _ _ _ _ NY NA) (near_opp u _ _ _ _ Nb)) as N.
  apply near_err in N.
  assert (E1 : apply n (at_ Y) x r + apply FU (at_ A) U r - q - (rlin p e rho g x U - f) =
    apply n (at_ Y) x r + apply FU (at_ A) U r + - q -
    (sum n (fun j => sum p (fun q => e q * PH (rho q) j) * x j) +
     sum FU (fun c => (sum p (fun q => e q * PS (rho q) c) + g c) * U c) + - (f - sum p (fun q => e q * XI (rho q))))).
  { unfold rlin, stacked_state, state_of. rewrite (wf_fu ps W).
    rewrite <- (combC n m (nrUStep ps)) by (intros q0 H0; rewrite <- fx_eq; apply Hr; exact H0). ring. }
  assert (E2 : rsize p e rho g x U + Qcabs f =
    sum n (fun j => sum p (fun q => Qcabs (e q) * PH' (rho q) j) * Qcabs (x j)) +
    sum FU (fun c => (sum p (fun q => Qcabs (e q) * PS' (rho q) c) + Qcabs (g c)) * Qcabs (U c)) +
    (Qcabs f + sum p (fun q => Qcabs (e q) * XI' (rho q)))).
  { unfold rsize, stacked_size, size_of. rewrite (wf_fu ps W).
    assert (Hr' : forall q, (q < p)%nat -> (rho q < n * (nrUStep ps + 1))%nat)
      by (intros q0 H0; rewrite <- fx_eq; apply Hr; exact H0).
    pose proof (combC n m (nrUStep ps) (mabs (at_ (psA ps))) (mabs (at_ (psB ps))) (vabs (vget (psd ps))) p
      (fun q => Qcabs (e q)) rho (fun c => Qcabs (g c)) (vabs x) (vabs U) Hr') as H.
    unfold vabs in H |- *. rewrite <- H. ring. }
  rewrite E1, E2. exact N.
Qed.

(** ** Rows made of the entries of the prediction *)
Lemma row_dot_near k t p e (M X S : nat -> Qc) : (forall q, (q < p)%nat -> near u k (M q) (X q) (S q)) ->
  near u (k + p) (F t nil (prods p e M)) (sum p (fun q => e q * X q)) (sum p (fun q => Qcabs (e q) * S q)).
Proof using Ac.
  clear FN X0 W. pose proof (proj1 Ac) as Hu. intro H. apply (F_near_0 u Hu F t k p e e (fun q => Qcabs (e q)) M X S Ac).
  intros i Hi. change k with (0 + k)%nat. apply near_mul; [exact Hu|apply near_abs; exact Hu|apply H; exact Hi].
Qed.
Lemma row_dotg_near k t p e g (M X S : nat -> Qc) : (forall q, (q < p)%nat -> near u k (M q) (X q) (S q)) ->
  near u (k + p + 1) (F t (g :: nil) (prods p e M)) (sum p (fun q => e q * X q) + g) (sum p (fun q => Qcabs (e q) * S q) + Qcabs g).
Proof using Ac.
  clear FN X0 W. pose proof (proj1 Ac) as Hu. intro H. eapply near_eq.
  - apply (F_near_1 u Hu F t k p g g (Qcabs g) e e (fun q => Qcabs (e q)) M X S Ac).
    + apply near_abs. exact Hu.
    + intros i Hi. change k with (0 + k)%nat. apply near_mul; [exact Hu|apply near_abs; exact Hu|apply H; exact Hi].
  - ring.
  - ring.
Qed.
Lemma row_minus_near k t p e (M X S : nat -> Qc) f : (forall q, (q < p)%nat -> near u k (M q) (X q) (S q)) ->
  enear u (k + p + 1) (f_minus F t f p e M) f (sum p (fun q => e q * X q)) (sum p (fun q => Qcabs (e q) * S q)).
Proof using Ac.
  clear FN X0 W. pose proof (proj1 Ac) as Hu. intro H. eapply enear_eq.
  - apply (f_minus_near u F t k f f 0 0 p e e (fun q => Qcabs (e q)) M X S Ac).
    + apply enear_refl. exact Hu.
    + intros i Hi. change k with (0 + k)%nat. apply near_mul; [exact Hu|apply near_abs; exact Hu|apply H; exact Hi].
  - ring.
  - ring.
Qed.
(** the last step: b = z - Y x0 *)
Lemma row_b_near k t z rhs s0 m0 (Y X S v : nat -> Qc) q : enear u k z rhs s0 m0 ->
  (forall j, (j < q)%nat -> near u k (Y j) (X j) (S j)) ->
  enear u (k + q + 1) (f_minus F t z q Y v) rhs (s0 + sum q (fun j => X j * v j)) (m0 + sum q (fun j => S j * Qcabs (v j))).
Proof using Ac.
  clear FN X0 W. pose proof (proj1 Ac) as Hu. intros Hz H.
  apply (f_minus_near u F t k z rhs s0 m0 q Y X S v v (fun j => Qcabs (v j)) Ac Hz).
  intros i Hi. replace k with (k + 0)%nat by lia. apply near_mul; [exact Hu|apply H; exact Hi|apply near_abs; exact Hu].
Qed.

Lemma frow_intro A b Y z r p e rho g rhs :
  (forall c, (c < FU)%nat -> near u (K + p + 1) (at_ A r c)
     (sum p (fun q => e q * PS (rho q) c) + g c) (sum p (fun q => Qcabs (e q) * PS' (rho q) c) + Qcabs (g c))) ->
  (forall j, (j < n)%nat -> near u (K + p + 1) (at_ Y r j)
     (sum p (fun q => e q * PH (rho q) j)) (sum p (fun q => Qcabs (e q) * PH' (rho q) j))) ->
  enear u (K + p + 1) (vget z r) rhs (sum p (fun q => e q * XI (rho q))) (sum p (fun q => Qcabs (e q) * XI' (rho q))) ->
  (exists t, vget b r = f_minus F t (vget z r) n (at_ Y r) (vget (x0 ps))) ->
  frow A b Y z r p e rho g rhs.
Proof using Ac.
  clear FN X0 W. intros HA HY Hz [t Hb]. split; [exact HA|]. split; [exact HY|]. split; [exact Hz|].
  rewrite Hb. apply row_b_near; [exact Hz|exact HY].
Qed.
Lemma near_g0 k r x s : near u k r x s -> near u k r (x + 0) (s + Qcabs 0).
Proof using. intro H. eapply near_eq; [exact H| |]; [ring|]. rewrite (Qcabs_pos 0 (Qcle_refl 0)). ring. Qed.

(** *** trajectory constraint *)
Section Traj.
Variables (E : mx) (f : vec ext).
Hypotheses (HE : cols E = n) (Hf : rows E = vsize f).
Notation nl := (rows E).

Definition ftinv (t : nat) (s : mx * vec ext * mx * vec ext) : Prop :=
  let '(A, b, Y, z) := s in
  rows A = (nl * nrXStep ps)%nat /\ cols A = FU /\ vsize b = (nl * nrXStep ps)%nat /\
  rows Y = (nl * nrXStep ps)%nat /\ cols Y = n /\ vsize z = (nl * nrXStep ps)%nat /\
  (forall k i, (k < t)%nat -> (i < nl)%nat ->
     frow A b Y z (k * nl + i) n (at_ E i) (fun q => k * n + q)%nat (fun _ => 0) (vget f i)).

Lemma f_traj_step_ok t s : (t < nrXStep ps)%nat -> ftinv t s ->
  exists s', f_traj_step F ps E f t s = Some s' /\ ftinv (1 + t) s'.
Proof.
  destruct s as [[[A b] Y] z]. intros Ht [S1 [S2 [S3 [S4 [S5 [S6 I]]]]]]. pose proof (proj1 Ac) as Hu.
  pose proof (wf_Phr ps W) as P1. pose proof (wf_Phc ps W) as P2. pose proof (wf_Psr ps W) as P3.
  pose proof (wf_Psc ps W) as P4. pose proof (wf_xi ps W) as P5.
  pose proof (wf_fx ps W) as P7. rewrite P7 in P1, P3, P5.
  unfold f_traj_step.
  rewrite block_ok by nia. cbn [obind].
  rewrite f_mmul_ok by (cbn; congruence). cbn [obind rows cols at_].
  rewrite setBlock_ok by (cbn; nia). cbn [obind rows cols at_].
  rewrite block_ok by nia. cbn [obind].
  rewrite f_mmul_ok by (cbn; congruence). cbn [obind rows cols at_].
  rewrite setBlock_ok by (cbn; nia). cbn [obind rows cols at_].
  rewrite seg_ok by nia. cbn [obind].
  rewrite f_mvsub_ok by (cbn; congruence). cbn [obind vsize vget].
  rewrite setSeg_ok by (cbn; nia). cbn [obind vsize vget].
  rewrite seg_ok by (cbn; nia). cbn [obind vsize vget].
  rewrite block_ok by (cbn; nia). cbn [obind rows cols at_].
  rewrite f_mvsub_ok by (cbn; congruence). cbn [obind vsize vget rows cols at_].
  rewrite setSeg_ok by (cbn; nia). cbn [obind vsize vget].
  eexists. split; [reflexivity|]. unfold ftinv. cbn [rows cols at_ vsize vget].
  repeat (split; [assumption|]).
  intros k i Hk Hi.
  assert (EA : forall w c, (c < w)%nat -> true && (0 <=? c)%nat && (c <? w)%nat = true).
  { intros w c Hc. cbn [andb]. rewrite (proj2 (Nat.ltb_lt c w) Hc). reflexivity. }
  assert (EB : (t * nl <=? k * nl + i)%nat && (k * nl + i <? t * nl + nl)%nat = Nat.eqb k t) by (apply seg_cond; assumption).
  destruct (Nat.eqb_spec k t) as [->|Ek].
  - apply frow_intro.
    + intros c Hc. cbn [at_ Nat.add]. rewrite EB. rewrite blk_sub. rewrite EA by assumption. rewrite HE, Nat.sub_0_r.
      apply near_g0. eapply near_mono; [exact Hu|apply (row_dot_near K)|lia].
      intros q Hq. apply (fn_Psi u K ps FN); [rewrite P7; nia|exact Hc].
    + intros j Hj. cbn [at_ Nat.add]. rewrite EB. rewrite blk_sub. rewrite EA by assumption. rewrite HE, Nat.sub_0_r.
      eapply near_mono; [exact Hu|apply (row_dot_near K)|lia].
      intros q Hq. apply (fn_Phi u K ps FN); [rewrite P7; nia|exact Hj].
    + cbn [vget]. rewrite EB. rewrite blk_sub. rewrite HE. apply row_minus_near.
      intros q Hq. apply (fn_xi u K ps FN). rewrite P7. nia.
    + cbn [vget at_]. rewrite EB. rewrite blk_sub. rewrite EB, blk_sub. eexists. reflexivity.
  - destruct (I k i ltac:(lia) Hi) as [I1 [I2 [I3 I4]]].
    split; [|split; [|split]].
    + intros c Hc. cbn [at_ Nat.add]. rewrite EB. apply I1; assumption.
    + intros j Hj. cbn [at_ Nat.add]. rewrite EB. apply I2; assumption.
    + cbn [vget]. rewrite EB. exact I3.
    + cbn [vget]. rewrite EB. exact I4.
Qed.
End Traj.

(** what row [r] stands for *)
Definition fc_p (c : constr) : nat :=
  match ck c with KTraj | KMixed => if fullSizeEntry c then FX else n | _ => 1 end.
Definition fc_e (c : constr) (r q : nat) : Qc :=
  match ck c with KTraj | KMixed => if fullSizeEntry c then at_ (cE c) r q else at_ (cE c) (r mod rows (cE c)) q | _ => 1 end.
Definition fc_rho (c : constr) (r q : nat) : nat :=
  match ck c with
  | KTraj | KMixed => if fullSizeEntry c then q else (r / rows (cE c) * n + q)%nat
  | _ => let nL := (length (lowerLines c) * tb_steps ps c)%nat in
         if (r <? nL)%nat then tb_src ps (lowerLines c) r else tb_src ps (upperLines c) (r - nL)
  end.
Definition fc_g (c : constr) (r k : nat) : Qc :=
  match ck c with
  | KMixed => if fullSizeEntry c then at_ (cG c) r k else gcol ps (cG c) (r / rows (cE c)) (r mod rows (cE c)) k
  | _ => 0
  end.
Definition frow_of (c c' : constr) (r : nat) : Prop :=
  frow (cA c') (cb c') (cY c') (cz c') r (fc_p c) (fc_e c r) (fc_rho c r) (fc_g c r) (c_rhs ps c r).

Lemma f_traj_update_ok c : ck c = KTraj -> c_shape ps c ->
  exists c', f_traj_update F ps c = Some c' /\ same_data c c' /\ c_shape ps c' /\
    forall r, (r < nrConstr c)%nat -> frow_of c c' r.
Proof.
  intros Hk. unfold c_shape, f_traj_update, frow_of, fc_p, fc_e, fc_rho, fc_g, c_rhs. rewrite Hk.
  intros [Sz [Hf Hc]]. pose proof (proj1 Ac) as Hu. destruct (fullSizeEntry c) eqn:FS.
  - destruct Hc as [HE Hnr].
    pose proof (wf_Phr ps W) as P1. pose proof (wf_Phc ps W) as P2. pose proof (wf_Psr ps W) as P3.
    pose proof (wf_Psc ps W) as P4. pose proof (wf_xi ps W) as P5.
    rewrite f_mmul_ok by congruence. cbn [obind rows cols at_].
    rewrite f_mmul_ok by congruence. cbn [obind rows cols at_].
    rewrite f_mvsub_ok by congruence. cbn [obind vsize vget].
    rewrite f_mvsub_ok by (cbn; congruence). cbn [obind vsize vget rows cols at_].
    eexists. split; [reflexivity|]. split; [apply same_data_rows|].
    cbn [ck set_rows cE cf fullSizeEntry nrConstr]. rewrite Hk, FS.
    split; [unfold sized; cbn; repeat split; congruence|].
    intros r Hr. cbn [set_rows cA cb cY cz]. apply frow_intro.
    + intros k Hk'. cbn [at_]. rewrite HE. apply near_g0.
      eapply near_mono; [exact Hu|apply (row_dot_near K)|lia]. intros q Hq. apply (fn_Psi u K ps FN); assumption.
    + intros j Hj. cbn [at_]. rewrite HE. eapply near_mono; [exact Hu|apply (row_dot_near K)|lia].
      intros q Hq. apply (fn_Phi u K ps FN); assumption.
    + cbn [vget]. rewrite HE. apply row_minus_near. intros q Hq. apply (fn_xi u K ps FN); assumption.
    + cbn [vget at_]. rewrite P2. eexists. reflexivity.
  - destruct Hc as [HE Hnr].
    assert (T0 : ftinv (cE c) (cf c) 0 (cA c, cb c, cY c, cz c)).
    { unfold ftinv. destruct Sz as [A1 [A2 [A3 [A4 [A5 A6]]]]]. rewrite <- Hnr.
      repeat (split; [assumption|]). intros; lia. }
    destruct (for_inv (ftinv (cE c) (cf c)) 0%nat (nrXStep ps) (f_traj_step F ps (cE c) (cf c)) _ ltac:(lia) T0) as [[[[A b] Y] z] [Es I]].
    { intros i s Hi Hs. apply f_traj_step_ok; try assumption; lia. }
    rewrite Es. cbn [obind]. eexists. split; [reflexivity|]. split; [apply same_data_rows|].
    destruct I as [S1 [S2 [S3 [S4 [S5 [S6 I]]]]]].
    cbn [ck set_rows cE cf fullSizeEntry nrConstr]. rewrite Hk, FS.
    split; [unfold sized; cbn; repeat split; congruence|].
    intros r Hr. rewrite Hnr, Nat.mul_comm in Hr.
    destruct (blk_div' _ _ _ Hr) as [k [i [Hk' [Hi ->]]]].
    rewrite blk_quot, blk_rem by exact Hi. exact (I k i Hk' Hi).
Qed.

(** *** mixed constraint *)
Section Mixed.
Variables (E G : mx) (f : vec ext).
Hypotheses (HE : cols E = n) (HG : cols G = m) (Hf : rows E = vsize f).
Notation nl := (rows E).

(** block (k,l) of A *)
Definition MX (k l i j : nat) : Qc :=
  sum n (fun q => at_ E i q * PsiB n (at_ (psA ps)) (at_ (psB ps)) k l q j) + (if Nat.eqb k l then at_ G i j else 0).
Definition MS (k l i j : nat) : Qc :=
  sum n (fun q => Qcabs (at_ E i q) * PsiB n (mabs (at_ (psA ps))) (mabs (at_ (psB ps))) k l q j)
  + Qcabs (if Nat.eqb k l then at_ G i j else 0).
Lemma MX_shift k l i j : MX (S k) (S l) i j = MX k l i j.
Proof using. unfold MX. cbn [Nat.eqb]. f_equal. apply sum_ext; intros. rewrite PsiB_shift. reflexivity. Qed.
Lemma MS_shift k l i j : MS (S k) (S l) i j = MS k l i j.
Proof using. unfold MS. cbn [Nat.eqb]. f_equal. apply sum_ext; intros. rewrite PsiB_shift. reflexivity. Qed.
Lemma abs0 : Qcabs 0 = 0.
Proof using. apply Qcabs_pos. apply Qcle_refl. Qed.
Lemma MX_upper k l i j : (k < l)%nat -> MX k l i j = 0.
Proof using.
  clear HE HG Hf X0 FN W Ac. intros H. unfold MX. destruct (Nat.eqb_spec k l); [lia|].
  rewrite sum_zero; [ring|]. intros q Hq. rewrite PsiB_upper by lia. ring.
Qed.
Lemma MS_upper k l i j : (k < l)%nat -> MS k l i j = 0.
Proof using.
  clear HE HG Hf X0 FN W Ac. intros H. unfold MS. destruct (Nat.eqb_spec k l); [lia|]. rewrite abs0.
  rewrite sum_zero; [ring|]. intros q Hq. rewrite PsiB_upper by lia. ring.
Qed.

Definition mnear (A : mx) (k l i j : nat) : Prop :=
  near u (K + n + 1) (at_ A (k * nl + i) (l * m + j)) (MX k l i j) (MS k l i j).
Definition mzero_up (A : mx) : Prop :=
  forall k l i j, (k < nrUStep ps)%nat -> (l < nrUStep ps)%nat -> (i < nl)%nat -> (j < m)%nat -> (k < l)%nat ->
    at_ A (k * nl + i) (l * m + j) = 0.
Definition fminv (t : nat) (s : mx * vec ext * mx * vec ext) : Prop :=
  let '(A, b, Y, z) := s in
  rows A = (nl * nrUStep ps)%nat /\ cols A = FU /\ vsize b = (nl * nrUStep ps)%nat /\
  rows Y = (nl * nrUStep ps)%nat /\ cols Y = n /\ vsize z = (nl * nrUStep ps)%nat /\ mzero_up A /\
  (forall k l i j, (k < nrUStep ps)%nat -> (l < nrUStep ps)%nat -> (i < nl)%nat -> (j < m)%nat -> (k < t)%nat \/ (k < l)%nat ->
     mnear A k l i j) /\
  (forall k i, (k < t)%nat -> (i < nl)%nat ->
    (forall j, (j < n)%nat -> near u (K + n + 1) (at_ Y (k * nl + i) j)
       (sum n (fun q => at_ E i q * PH (k * n + q)%nat j)) (sum n (fun q => Qcabs (at_ E i q) * PH' (k * n + q)%nat j))) /\
    enear u (K + n + 1) (vget z (k * nl + i)) (vget f i)
      (sum n (fun q => at_ E i q * XI (k * n + q)%nat)) (sum n (fun q => Qcabs (at_ E i q) * XI' (k * n + q)%nat)) /\
    exists t, vget b (k * nl + i) = f_minus F t (vget z (k * nl + i)) n (at_ Y (k * nl + i)) (vget (x0 ps))).

Lemma f_mixed_shift_ok t A : (1 <= t < nrUStep ps)%nat -> rows A = (nl * nrUStep ps)%nat -> cols A = FU -> mzero_up A ->
  (forall k l i j, (k < nrUStep ps)%nat -> (l < nrUStep ps)%nat -> (i < nl)%nat -> (j < m)%nat ->
     (k < t)%nat \/ (k < l)%nat \/ (k = t /\ (l < 1)%nat) -> mnear A k l i j) ->
  exists A', mixed_shift nl m t A = Some A' /\ rows A' = (nl * nrUStep ps)%nat /\ cols A' = FU /\ mzero_up A' /\
  (forall k l i j, (k < nrUStep ps)%nat -> (l < nrUStep ps)%nat -> (i < nl)%nat -> (j < m)%nat ->
     (k < 1 + t)%nat \/ (k < l)%nat -> mnear A' k l i j).
Proof using W.
  clear HE HG Hf FN X0 Ac.
  intros Ht S1 S2 Z I. unfold mixed_shift. pose proof (wf_fu ps W) as EU.
  destruct (for_inv (fun q P => rows P = (nl * nrUStep ps)%nat /\ cols P = FU /\ mzero_up P /\
    (forall k l i j, (k < nrUStep ps)%nat -> (l < nrUStep ps)%nat -> (i < nl)%nat -> (j < m)%nat ->
      (k < t)%nat \/ (k < l)%nat \/ (k = t /\ (l < q)%nat) -> mnear P k l i j)) 1%nat (t + 1)%nat
    (fun j P => b <- block P ((t - 1) * nl) ((j - 1) * m) nl m ;; setBlock P (t * nl) (j * m) nl m b) A)
    as [A' [Ea [J1 [J2 [J4 J3]]]]].
  - lia.
  - split; [exact S1|]. split; [exact S2|]. split; [exact Z|exact I].
  - intros q P Hq [J1 [J2 [J4 J3]]].
    rewrite block_ok by nia. cbn [obind].
    rewrite setBlock_ok by (cbn; nia). eexists. split; [reflexivity|]. cbn [rows cols at_].
    split; [assumption|]. split; [assumption|]. split.
    + intros k l i j Hk Hl Hi Hj Hkl. cbn [at_]. rewrite blk_cond by assumption.
      destruct (Nat.eqb_spec k t) as [->|Ek]; cbn [andb]; [|apply J4; assumption].
      destruct (Nat.eqb_spec l q) as [->|El]; [lia|apply J4; assumption].
    + intros k l i j Hk Hl Hi Hj Hcase. unfold mnear. cbn [at_]. rewrite blk_cond by assumption.
      destruct (Nat.eqb_spec k t) as [->|Ek]; cbn [andb]; [|apply J3; lia].
      destruct (Nat.eqb_spec l q) as [->|El]; [|apply J3; lia].
      rewrite !blk_sub. destruct q as [|q]; [lia|]. destruct t as [|t']; [lia|].
      replace (S q - 1)%nat with q by lia. replace (S t' - 1)%nat with t' by lia.
      rewrite MX_shift, MS_shift. apply J3; lia.
  - exists A'. repeat (split; [assumption|]).
    intros. apply J3; try assumption. lia.
Qed.

Lemma f_mixed_step_ok t s : (1 <= t < nrUStep ps)%nat -> fminv t s ->
  exists s', f_mixed_step F ps E f t s = Some s' /\ fminv (1 + t) s'.
Proof.
  destruct s as [[[A b] Y] z]. intros Ht [S1 [S2 [S3 [S4 [S5 [S6 [IZ [IA I]]]]]]]]. pose proof (proj1 Ac) as Hu.
  pose proof (wf_Phr ps W) as P1. pose proof (wf_Phc ps W) as P2. pose proof (wf_Psr ps W) as P3.
  pose proof (wf_Psc ps W) as P4. pose proof (wf_xi ps W) as P5. pose proof X0 as P6.
  pose proof (wf_nx ps W) as P7. pose proof (wf_fu ps W) as P8. pose proof (wf_fx ps W) as P9.
  rewrite P9 in P1, P3, P5.
  unfold f_mixed_step.
  rewrite block_ok by nia. cbn [obind].
  rewrite f_mmul_ok by (cbn; congruence). cbn [obind rows cols at_].
  rewrite setBlock_ok by (cbn; nia). cbn [obind rows cols at_].
  rewrite block_ok by nia. cbn [obind].
  rewrite f_mmul_ok by (cbn; congruence). cbn [obind rows cols at_].
  rewrite setBlock_ok by (cbn; nia). cbn [obind rows cols at_].
  match goal with |- context [mixed_shift nl m t ?P] => set (A1 := P) end.
  destruct (f_mixed_shift_ok t A1) as [A2 [Ea [T1 [T2 [T4 T3]]]]]; [exact Ht|assumption|assumption| | |].
  { intros k l i j Hk Hl Hi Hj Hkl. unfold A1. cbn [at_].
    pose proof (blk_cond nl m t 0 k i l j Hi Hj) as EC. cbn [Nat.mul Nat.add] in EC. cbn [Nat.add]. rewrite EC.
    destruct (Nat.eqb_spec k t) as [->|Ek]; cbn [andb]; [|apply IZ; assumption].
    destruct (Nat.eqb_spec l 0) as [->|El]; [lia|apply IZ; assumption]. }
  { intros k l i j Hk Hl Hi Hj Hcase. unfold mnear, A1. cbn [at_].
    pose proof (blk_cond nl m t 0 k i l j Hi Hj) as EC. cbn [Nat.mul Nat.add] in EC. cbn [Nat.add]. rewrite EC.
    destruct (Nat.eqb_spec k t) as [->|Ek]; cbn [andb]; [|apply IA; lia || assumption].
    destruct (Nat.eqb_spec l 0) as [->|El]; [|apply IA; lia || assumption].
    rewrite blk_sub. cbn [Nat.mul Nat.add]. rewrite Nat.sub_0_r.
    unfold MX, MS. destruct (Nat.eqb_spec t 0) as [E0t|E0t]; [lia|]. rewrite HE. apply near_g0.
    eapply near_mono; [exact Hu|apply (row_dot_near K)|lia].
    intros q Hq. pose proof (fn_Psi u K ps FN (t * n + q)%nat j) as H. unfold psiC in H.
    pose proof (blk_quot m 0 j Hj) as E0. pose proof (blk_rem m 0 j Hj) as E1. cbn [Nat.mul Nat.add] in E0, E1.
    rewrite E0, E1, blk_quot, blk_rem in H by exact Hq. apply H; [rewrite P9; nia|nia]. }
  rewrite Ea. cbn [obind].
  rewrite seg_ok by nia. cbn [obind].
  rewrite f_mvsub_ok by (cbn; congruence). cbn [obind vsize vget].
  rewrite setSeg_ok by (cbn; nia). cbn [obind vsize vget].
  rewrite seg_ok by (cbn; nia). cbn [obind vsize vget].
  rewrite block_ok by (cbn; nia). cbn [obind rows cols at_].
  rewrite f_mvsub_ok by (cbn; congruence). cbn [obind vsize vget rows cols at_].
  rewrite setSeg_ok by (cbn; nia). cbn [obind vsize vget].
  eexists. split; [reflexivity|]. unfold fminv. cbn [rows cols at_ vsize vget].
  repeat (split; [assumption|]).
  intros k i Hk Hi.
  assert (EA : forall w c, (c < w)%nat -> true && (0 <=? c)%nat && (c <? w)%nat = true).
  { intros w c Hc. cbn [andb]. rewrite (proj2 (Nat.ltb_lt c w) Hc). reflexivity. }
  assert (EB : (t * nl <=? k * nl + i)%nat && (k * nl + i <? t * nl + nl)%nat = Nat.eqb k t) by (apply seg_cond; assumption).
  cbn [Nat.add].
  destruct (Nat.eqb_spec k t) as [->|Ek].
  - split; [|split].
    + intros j Hj. rewrite EB, blk_sub. rewrite EA by assumption. rewrite HE, Nat.sub_0_r.
      eapply near_mono; [exact Hu|apply (row_dot_near K)|lia].
      intros q Hq. apply (fn_Phi u K ps FN); [rewrite P9; nia|exact Hj].
    + rewrite EB, blk_sub, HE. apply row_minus_near.
      intros q Hq. apply (fn_xi u K ps FN). rewrite P9. nia.
    + rewrite EB, blk_sub, EB, blk_sub. eexists. reflexivity.
  - destruct (I k i ltac:(lia) Hi) as [I2 [I3 I4]].
    split; [|split].
    + intros j Hj. rewrite EB. apply I2; assumption.
    + rewrite EB. exact I3.
    + rewrite EB. exact I4.
Qed.
End Mixed.

Lemma gcol_abs (G : mx) k i c : Qcabs (gcol ps G k i c) = if Nat.eqb k (c / m) then Qcabs (at_ G i (c mod m)) else 0.
Proof using. unfold gcol. destruct (Nat.eqb k (c / m)); [reflexivity|apply abs0]. Qed.

Lemma f_mixed_update_ok c : ck c = KMixed -> c_shape ps c ->
  exists c', f_mixed_update F ps c = Some c' /\ same_data c c' /\ c_shape ps c' /\
    forall r, (r < nrConstr c)%nat -> frow_of c c' r.
Proof.
  intros Hk. unfold c_shape, f_mixed_update, frow_of, fc_p, fc_e, fc_rho, fc_g, c_rhs. rewrite Hk.
  intros [Sz [Hf [HGr Hc]]]. pose proof (proj1 Ac) as Hu.
  pose proof (wf_Phr ps W) as P1. pose proof (wf_Phc ps W) as P2. pose proof (wf_Psr ps W) as P3.
  pose proof (wf_Psc ps W) as P4. pose proof (wf_xi ps W) as P5. pose proof X0 as P6.
  destruct (fullSizeEntry c) eqn:FS.
  - destruct Hc as [HE [HG Hnr]].
    rewrite f_mmadd_ok by congruence. cbn [obind rows cols at_].
    rewrite f_mmul_ok by congruence. cbn [obind rows cols at_].
    rewrite f_mvsub_ok by congruence. cbn [obind vsize vget].
    rewrite f_mvsub_ok by (cbn; congruence). cbn [obind vsize vget rows cols at_].
    eexists. split; [reflexivity|]. split; [apply same_data_rows|].
    cbn [ck set_rows cE cG cf fullSizeEntry nrConstr]. rewrite Hk, FS.
    split; [unfold sized; cbn; repeat split; congruence|].
    intros r Hr. cbn [set_rows cA cb cY cz]. apply frow_intro.
    + intros k Hk'. cbn [at_]. rewrite HE. apply row_dotg_near. intros q Hq. apply (fn_Psi u K ps FN); assumption.
    + intros j Hj. cbn [at_]. rewrite HE. eapply near_mono; [exact Hu|apply (row_dot_near K)|lia].
      intros q Hq. apply (fn_Phi u K ps FN); assumption.
    + cbn [vget]. rewrite HE. apply row_minus_near. intros q Hq. apply (fn_xi u K ps FN); assumption.
    + cbn [vget at_]. rewrite P2. eexists. reflexivity.
  - destruct Hc as [HE [HG [Hnr HZ]]].
    destruct Sz as [A1 [A2 [A3 [A4 [A5 A6]]]]].
    pose proof (wf_nu ps W) as HN. pose proof (wf_fu ps W) as EU. pose proof (wf_nx ps W) as EN. pose proof (wf_fx ps W) as EX.
    rewrite Hnr in A1, A3, A4, A6.
    rewrite setBlock_ok by nia. cbn [obind].
    rewrite setBlock_ok by nia. cbn [obind].
    rewrite setSeg_ok by nia. cbn [obind].
    rewrite seg_ok by (cbn; nia). cbn [obind].
    rewrite block_ok by (cbn; nia). cbn [obind].
    rewrite f_mvsub_ok by (cbn; congruence). cbn [obind vsize vget rows cols at_].
    rewrite setSeg_ok by (cbn; nia). cbn [obind vsize vget].
    match goal with |- context [for_ 1 _ _ ?s] => set (s0 := s) end.
    assert (T0 : fminv (cE c) (cG c) (cf c) 1 s0).
    { unfold s0, fminv. cbn [rows cols at_ vsize vget]. repeat (split; [assumption|]).
      assert (EC : forall k l i j, (i < rows (cE c))%nat -> (j < m)%nat ->
        (0 <=? k * rows (cE c) + i)%nat && (k * rows (cE c) + i <? 0 + rows (cE c))%nat && (0 <=? l * m + j)%nat
          && (l * m + j <? 0 + m)%nat = Nat.eqb k 0 && Nat.eqb l 0).
      { intros k l i j Hi Hj. exact (blk_cond (rows (cE c)) m 0 0 k i l j Hi Hj). }
      split; [|split].
      - intros k l i j Hk' Hl Hi Hj Hkl. cbn [at_]. rewrite EC by assumption.
        destruct (Nat.eqb_spec k 0) as [->|Ek]; cbn [andb]; [|apply HZ; assumption].
        destruct (Nat.eqb_spec l 0) as [->|El]; [lia|apply HZ; assumption].
      - intros k l i j Hk' Hl Hi Hj Hcase. unfold mnear. cbn [at_]. rewrite EC by assumption.
        destruct (Nat.eqb_spec k 0) as [->|Ek]; cbn [andb].
        + destruct (Nat.eqb_spec l 0) as [->|El].
          * cbn [Nat.mul Nat.add]. rewrite !Nat.sub_0_r. unfold MX, MS. cbn [Nat.eqb].
            rewrite !sum_zero by (intros q Hq; rewrite PsiB_upper by lia; ring). rewrite !Qcplus_0_l.
            apply near_abs. exact Hu.
          * rewrite MX_upper, MS_upper by lia. rewrite HZ by lia. apply near_0. exact Hu.
        + rewrite MX_upper, MS_upper by lia. rewrite HZ by (assumption || lia). apply near_0. exact Hu.
      - intros k i Hk' Hi. assert (k = 0)%nat by lia. subst k. cbn [Nat.mul Nat.add].
        rewrite (proj2 (Nat.ltb_lt i (rows (cE c)))) by exact Hi. cbn [Nat.leb andb].
        rewrite !Nat.sub_0_r.
        rewrite (proj2 (Nat.ltb_lt i (rows (cE c)))) by exact Hi.
        assert (EH : forall AA q j, (q < n)%nat -> phiC n AA q j = if Nat.eqb q j then 1 else 0).
        { intros AA q j Hq. unfold phiC. rewrite Nat.div_small, Nat.mod_small by exact Hq. reflexivity. }
        assert (EI : forall AA d0 q, (q < n)%nat -> xiC n AA d0 q = 0).
        { intros AA d0 q Hq. unfold xiC. rewrite Nat.div_small by exact Hq. reflexivity. }
        split; [|split].
        + intros j Hj. rewrite (proj2 (Nat.ltb_lt j n)) by exact Hj. rewrite Nat.sub_0_r.
          rewrite (sum_ext n (fun q => at_ (cE c) i q * PH q j) (fun q => at_ (cE c) i q * (if Nat.eqb q j then 1 else 0)))
            by (intros q Hq; rewrite EH by exact Hq; reflexivity).
          rewrite (sum_ext n (fun q => Qcabs (at_ (cE c) i q) * PH' q j) (fun q => Qcabs (at_ (cE c) i q) * (if Nat.eqb q j then 1 else 0)))
            by (intros q Hq; rewrite EH by exact Hq; reflexivity).
          rewrite !sum_delta_r by exact Hj. apply near_abs. exact Hu.
        + rewrite !sum_zero by (intros q Hq; rewrite EI by exact Hq; ring). apply enear_refl. exact Hu.
        + eexists. unfold f_minus.
          match goal with |- match ?e with _ => _ end = _ => destruct e; [reflexivity| |reflexivity] end.
          reflexivity. }
    destruct (for_inv (fminv (cE c) (cG c) (cf c)) 1%nat (nrUStep ps) (f_mixed_step F ps (cE c) (cf c)) s0 HN T0)
      as [[[[A b] Y] z] [Es I]].
    { intros i s Hi Hs. apply f_mixed_step_ok; assumption. }
    rewrite Es. cbn [obind]. eexists. split; [reflexivity|]. split; [apply same_data_rows|].
    destruct I as [S1 [S2 [S3 [S4 [S5 [S6 [IZ [IA I]]]]]]]].
    cbn [ck set_rows cE cG cf fullSizeEntry nrConstr]. rewrite Hk, FS.
    split.
    { split; [unfold sized; cbn; repeat split; congruence|]. repeat (split; [assumption|]).
      intros k l i j Hk' Hl Hkl Hi Hj. apply IZ; assumption. }
    intros r Hr. rewrite Hnr, Nat.mul_comm in Hr.
    destruct (blk_div' _ _ _ Hr) as [k [i [Hk' [Hi ->]]]].
    rewrite blk_quot, blk_rem by exact Hi.
    destruct (I k i Hk' Hi) as [I2 [I3 I4]].
    cbn [set_rows cA cb cY cz]. apply frow_intro; [|exact I2|exact I3|exact I4].
    intros c0 Hc0. rewrite EU, Nat.mul_comm in Hc0.
    destruct (blk_div' _ _ _ Hc0) as [l [j [Hl [Hj ->]]]].
    rewrite gcol_abs. unfold gcol. rewrite blk_quot, blk_rem by exact Hj.
    eapply near_eq; [apply IA; try assumption; left; exact Hk'| |]; unfold MX, MS.
    + f_equal. apply sum_ext; intros q Hq. unfold psiC. rewrite !blk_quot, !blk_rem by assumption. reflexivity.
    + f_equal.
      * apply sum_ext; intros q Hq. unfold psiC. rewrite !blk_quot, !blk_rem by assumption. reflexivity.
      * destruct (Nat.eqb k l); [reflexivity|apply abs0].
Qed.

(** *** trajectory bounds *)
Definition fbinv (N : nat) (src : nat -> nat) (bnd : nat -> ext) (t : nat) (s : mx * vec ext * mx * vec ext * nat) : Prop :=
  let '(A, b, Y, z, nl) := s in
  rows A = N /\ cols A = FU /\ vsize b = N /\ rows Y = N /\ cols Y = n /\ vsize z = N /\ nl = t /\
  forall r, (r < t)%nat -> frow A b Y z r 1 (fun _ => 1) (fun _ => src r) (fun _ => 0) (bnd r).

Lemma f_bound_row_ok N src bnd v step line t s :
  (t < N)%nat -> (line < vsize v)%nat -> (line + n * step < FX)%nat -> src t = (line + n * step)%nat -> bnd t = vget v line ->
  fbinv N src bnd t s -> exists s', f_bound_row F ps v step line s = Some s' /\ fbinv N src bnd (t + 1) s'.
Proof.
  destruct s as [[[[A b] Y] z] nl]. intros Ht Hl Hr Hs Hb [S1 [S2 [S3 [S4 [S5 [S6 [-> I]]]]]]]. pose proof (proj1 Ac) as Hu.
  pose proof (wf_Phr ps W) as P1. pose proof (wf_Phc ps W) as P2. pose proof (wf_Psr ps W) as P3.
  pose proof (wf_Psc ps W) as P4. pose proof (wf_xi ps W) as P5. pose proof X0 as P6.
  assert (S1e : forall G : nat -> Qc, sum 1 G = G 0%nat) by (intro G; cbn [sum]; ring).
  assert (A1 : Qcabs 1 = 1) by (apply Qcabs_pos; unfold Qcle; cbn; lra).
  unfold f_bound_row.
  rewrite setRow_ok by (congruence || lia). cbn [obind].
  rewrite setRow_ok by (congruence || lia). cbn [obind].
  rewrite vat_ok by assumption. cbn [obind].
  rewrite vat_ok by lia. cbn [obind].
  rewrite vset_ok by lia. cbn [obind].
  rewrite vat_ok by (cbn; lia). cbn [obind vget rows cols].
  rewrite S4, S5, X0, Nat.eqb_refl. rewrite (proj2 (Nat.ltb_lt t N)) by exact Ht. cbn [andb].
  rewrite vset_ok by lia. cbn [obind].
  eexists. split; [reflexivity|]. unfold fbinv. cbn [rows cols at_ vsize vget].
  repeat (split; [assumption || reflexivity|]).
  intros r Hr'. destruct (Nat.eqb_spec r t) as [->|Er].
  - rewrite Hs, Hb. apply frow_intro.
    + intros c Hc. cbn [at_]. rewrite Nat.eqb_refl. apply near_g0. rewrite !S1e, A1, !Qcmult_1_l.
      eapply near_mono; [exact Hu|apply (fn_Psi u K ps FN); assumption|lia].
    + intros j Hj. cbn [at_]. rewrite Nat.eqb_refl. rewrite !S1e, A1, !Qcmult_1_l.
      eapply near_mono; [exact Hu|apply (fn_Phi u K ps FN); assumption|lia].
    + cbn [vget]. rewrite Nat.eqb_refl. apply (row_minus_near K _ 1 (fun _ => 1) (fun _ => vget (psxi ps) (line + n * step))).
      intros q Hq. apply (fn_xi u K ps FN). exact Hr.
    + cbn [vget at_]. rewrite !Nat.eqb_refl. eexists. reflexivity.
  - destruct (I r) as [J1 [J2 [J3 J4]]]; [lia|].
    assert (Et : Nat.eqb r t = false) by (apply Nat.eqb_neq; exact Er).
    split; [|split; [|split]]; cbn [at_ vget]; rewrite ?Et; assumption.
Qed.

Lemma f_bound_loop_ok N src bnd v lines steps a s :
  (forall p step, (step < steps)%nat -> (p < length lines)%nat ->
     (nth p lines 0 < vsize v)%nat /\ (nth p lines 0 + n * step < FX)%nat /\
     src (a + step * length lines + p)%nat = (nth p lines 0 + n * step)%nat /\
     bnd (a + step * length lines + p)%nat = vget v (nth p lines 0%nat)) ->
  (a + steps * length lines <= N)%nat ->
  fbinv N src bnd a s ->
  exists s', for_ 0 steps (fun step => for_list lines (f_bound_row F ps v step)) s = Some s' /\
    fbinv N src bnd (a + steps * length lines) s'.
Proof.
  intros H HN I0.
  destruct (for_inv (fun t s => fbinv N src bnd (a + t * length lines) s) 0%nat steps
    (fun step => for_list lines (f_bound_row F ps v step)) s) as [s' [E I]].
  - lia.
  - cbn [Nat.mul]. rewrite Nat.add_0_r. exact I0.
  - intros step s1 Hst I1.
    destruct (for_list_inv (fbinv N src bnd) (f_bound_row F ps v step) lines (a + step * length lines)%nat s1 I1)
      as [s2 [E2 I2]].
    + intros p s2 Hp I2. destruct (H p step ltac:(lia) Hp) as [H1 [H2 [H3 H4]]].
      apply f_bound_row_ok; try assumption. nia.
    + exists s2. split; [exact E2|].
      replace (a + (1 + step) * length lines)%nat with (a + step * length lines + length lines)%nat by lia. exact I2.
  - exists s'. split; assumption.
Qed.

Lemma tb_facts c : ck c = KTrajB -> c_shape ps c ->
  nrConstr c = (length (lowerLines c) * tb_steps ps c + length (upperLines c) * tb_steps ps c)%nat /\
  (forall p step, (step < tb_steps ps c)%nat -> (p < length (lowerLines c))%nat ->
     (nth p (lowerLines c) 0 < vsize (clower c))%nat /\ (nth p (lowerLines c) 0 + n * step < FX)%nat) /\
  (forall p step, (step < tb_steps ps c)%nat -> (p < length (upperLines c))%nat ->
     (nth p (upperLines c) 0 < vsize (cupper c))%nat /\ (nth p (upperLines c) 0 + n * step < FX)%nat).
Proof using W.
  clear FN X0 Ac. intros Hk. unfold c_shape. rewrite Hk. intros [_ [Hlu [Fl [Fu Hc]]]].
  pose proof (wf_nx ps W) as HNX. pose proof (wf_fx ps W) as EX.
  assert (Hb : forall (v : vec ext) lines p step, vsize v = vsize (clower c) -> Forall (fun l => (l < vsize v)%nat) lines ->
     (step < tb_steps ps c)%nat -> (p < length lines)%nat -> (nth p lines 0 < vsize v)%nat /\ (nth p lines 0 + n * step < FX)%nat).
  { intros v lines p step Hv HF Hst Hp. rewrite Forall_forall in HF.
    assert (nth p lines 0 < vsize v)%nat by (apply HF; apply nth_In; exact Hp).
    split; [assumption|]. unfold tb_steps in Hst.
    destruct (fullSizeEntry c); destruct Hc as [Hc _].
    - assert (step = 0)%nat by lia. subst. lia.
    - rewrite EX. nia. }
  split; [unfold tb_steps; destruct (fullSizeEntry c); destruct Hc as [_ ->]; lia|].
  split; intros p step Hst Hp; apply Hb; try assumption; try reflexivity. symmetry. exact Hlu.
Qed.

Lemma f_trajB_update_ok c : ck c = KTrajB -> c_shape ps c ->
  exists c', f_trajB_update F ps c = Some c' /\ same_data c c' /\ c_shape ps c' /\
    forall r, (r < nrConstr c)%nat -> frow_of c c' r.
Proof.
  intros Hk Sh. destruct (tb_facts c Hk Sh) as [Hnr [HL HU]]. revert Sh.
  unfold c_shape, f_trajB_update, frow_of, fc_p, fc_e, fc_rho, fc_g, c_rhs. rewrite Hk.
  intros [Sz [Hlu [Fl [Fu Hc]]]]. destruct Sz as [A1 [A2 [A3 [A4 [A5 A6]]]]].
  pose proof (wf_nx ps W) as HNX. pose proof (wf_fx ps W) as EX.
  set (nL := length (lowerLines c)) in *. set (nU := length (upperLines c)) in *.
  set (steps := tb_steps ps c) in *.
  assert (Es : (if fullSizeEntry c then Nat.min 1 (nrXStep ps) else nrXStep ps) = steps).
  { unfold steps, tb_steps. destruct (fullSizeEntry c); [|reflexivity]. lia. }
  rewrite Es.
  set (src := fun r => if (r <? nL * steps)%nat then tb_src ps (lowerLines c) r else tb_src ps (upperLines c) (r - nL * steps)).
  set (bnd := fun r => if (r <? nL * steps)%nat then vget (clower c) (nth (r mod nL) (lowerLines c) 0%nat)
              else vget (cupper c) (nth ((r - nL * steps) mod nU) (upperLines c) 0%nat)).
  destruct (f_bound_loop_ok (nrConstr c) src bnd (clower c) (lowerLines c) steps 0 (cA c, cb c, cY c, cz c, 0%nat))
    as [s1 [E1 I1]].
  { intros p step Hst Hp. destruct (HL p step Hst Hp) as [H1 H2].
    split; [exact H1|]. split; [exact H2|]. cbn [Nat.add]. fold nL in Hp |- *.
    unfold src, bnd. rewrite (proj2 (Nat.ltb_lt _ _)) by nia.
    unfold tb_src. fold nL. rewrite blk_quot, blk_rem by exact Hp. split; reflexivity. }
  { cbn [Nat.add]. fold nL. lia. }
  { unfold fbinv. repeat (split; [assumption || reflexivity|]). intros; lia. }
  rewrite E1. cbn [obind].
  destruct (f_bound_loop_ok (nrConstr c) src bnd (cupper c) (upperLines c) steps (nL * steps) s1) as [s2 [E2 I2]].
  { intros p step Hst Hp. destruct (HU p step Hst Hp) as [H1 H2].
    split; [exact H1|]. split; [exact H2|]. fold nU in Hp |- *.
    unfold src, bnd. rewrite (proj2 (Nat.ltb_ge _ _)) by lia.
    unfold tb_src. fold nU. replace (nL * steps + step * nU + p - nL * steps)%nat with (step * nU + p)%nat by lia.
    rewrite blk_quot, blk_rem by exact Hp. split; reflexivity. }
  { fold nU. lia. }
  { cbn [Nat.add] in I1. fold nL in I1. rewrite (Nat.mul_comm nL steps). exact I1. }
  rewrite E2. cbn [obind]. destruct s2 as [[[[A b] Y] z] nl].
  destruct I2 as [S1 [S2 [S3 [S4 [S5 [S6 [_ I]]]]]]]. fold nU in I.
  eexists. split; [reflexivity|]. split; [apply same_data_rows|].
  cbn [ck set_rows clower cupper lowerLines upperLines fullSizeEntry nrConstr]. rewrite Hk.
  split.
  { split; [|split; [exact Hlu|split; [exact Fl|split; [exact Fu|exact Hc]]]].
    unfold sized; cbn; repeat split; congruence. }
  intros r Hr. cbn [set_rows cA cb cY cz]. apply (I r). rewrite (Nat.mul_comm steps nU). lia.
Qed.
End Rows.
