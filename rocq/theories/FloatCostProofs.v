(** FloatCostProofs.v -- rounding errors of the cost functions: the computed coefficients are near those of the exact model on
    the exact prediction, with the sizes given by the same formulas on absolute values. *)
From Coq Require Import Permutation Qcabs.
From Verif Require Import Base Eigen Spec Preview SpecApi PreviewProofs AutoSpan Constraints ConstraintProofs SpecConstraints.
From Verif Require Import Costs SpecCosts CostProofs ConstraintMeaning CostMeaning.
From Verif Require Import Floats SpecFloats FloatProofs FloatPreview FloatConstraints FloatRows FloatCosts SpecFloatCosts.
Open Scope Qc_scope.

(** ** The exact system and the system with absolute values *)
Definition closed (ps : psys) (A B : mx) (d x : vec Qc) : psys :=
  PS true (nrUStep ps) (nrXStep ps) (xDim ps) (uDim ps) (fullXDim ps) (fullUDim ps) x A B d
    (Mx (fullXDim ps) (xDim ps) (phiC (xDim ps) (at_ A)))
    (Mx (fullXDim ps) (fullUDim ps) (psiC (xDim ps) (uDim ps) (at_ A) (at_ B)))
    (Vec (fullXDim ps) (xiC (xDim ps) (at_ A) (vget d))).
Definition amx (M : mx) : mx := Mx (rows M) (cols M) (mabs (at_ M)).
Definition avec (v : vec Qc) : vec Qc := Vec (vsize v) (vabs (vget v)).
Definition pex (ps : psys) : psys := closed ps (psA ps) (psB ps) (psd ps) (x0 ps).
Definition pab (ps : psys) : psys := closed ps (amx (psA ps)) (amx (psB ps)) (avec (psd ps)) (avec (x0 ps)).
Definition absC (c : cost) : cost :=
  set_data c (amx (kM c)) (amx (kN c)) (Vec (vsize (kp c)) (fun i => - Qcabs (vget (kp c) i))) (avec (kw c)).

Lemma closed_ready ps A B d x : ps_wf ps -> vsize x = xDim ps -> ready (closed ps A B d x).
Proof.
  intros W X. split; cbn [closed nrXStep nrUStep fullXDim fullUDim xDim uDim x0 psA psB psd]; try apply W; [exact X|].
  unfold previews. cbn [closed psPhi psPsi psxi rows cols vsize at_ vget].
  rewrite <- (wf_nx ps W), <- (wf_fx ps W), <- (wf_fu ps W). repeat (split; [reflexivity|]).
  intros y U k i Hk Hi. rewrite (wf_fu ps W). rewrite (affineC (xDim ps) (uDim ps) (nrUStep ps)).
  - rewrite blk_quot, blk_rem by exact Hi. reflexivity.
  - nia.
Qed.
Lemma abs_opp_abs x : Qcabs (- Qcabs x) = Qcabs x.
Proof. rewrite Qcabs_opp. apply Qcabs_pos. apply Qcabs_nonneg. Qed.

(** ** Shapes of the rounded operations *)
Lemma f_hwt_ok F t acc w h tm : rows h = vsize w -> rows tm = rows h ->
  match acc with Some Q => rows Q = cols h /\ cols Q = cols tm | None => True end ->
  f_hwt F t acc w h tm = Some (Mx (cols h) (cols tm) (fun i j => F (i :: j :: t)%list (old_m acc i j)
    (prods (rows h) (fun r => f_times F (r :: i :: j :: t)%list (at_ h r i) (vget w r)) (fun r => at_ tm r j)))).
Proof.
  intros H1 H2 H3. unfold f_hwt. rewrite H1, H2, H1, !Nat.eqb_refl. destruct acc as [Q|]; [|reflexivity].
  destruct H3 as [-> ->]. rewrite !Nat.eqb_refl. reflexivity.
Qed.
Lemma f_gwt_ok F t acc w g tm : vsize g = vsize w -> rows tm = vsize g ->
  match acc with Some v => vsize v = cols tm | None => True end ->
  f_gwt F t acc w g tm = Some (Vec (cols tm) (fun j => F (j :: t)%list (old_v acc j)
    (prods (vsize g) (fun r => f_times F (r :: j :: t)%list (vget g r) (vget w r)) (fun r => at_ tm r j)))).
Proof.
  intros H1 H2 H3. unfold f_gwt. rewrite H1, H2, H1, !Nat.eqb_refl. destruct acc as [Q|]; [|reflexivity].
  rewrite H3, !Nat.eqb_refl. reflexivity.
Qed.
Lemma f_resid_ok F t M xi p : cols M = vsize xi -> rows M = vsize p ->
  f_resid F t M xi p = Some (Vec (rows M) (fun i => F (i :: t)%list (- vget p i :: nil) (prods (cols M) (at_ M i) (vget xi)))).
Proof. intros H1 H2. unfold f_resid. rewrite H1, H2, !Nat.eqb_refl. reflexivity. Qed.
Lemma f_lin_of_ok F t acc ps E f : rows E = vsize (x0 ps) -> cols E = vsize f ->
  match acc with Some v => vsize v = cols E | None => True end ->
  f_lin_of F t acc ps E f = Some (Vec (cols E) (fun j =>
    F (j :: t)%list (old_v acc j ++ vget f j :: nil)%list (prods (rows E) (fun i => at_ E i j) (vget (x0 ps))))).
Proof.
  intros H1 H2 H3. unfold f_lin_of. rewrite H1, H2, !Nat.eqb_refl. destruct acc as [v|]; [|reflexivity].
  rewrite H3, H2, Nat.eqb_refl. reflexivity.
Qed.
Lemma f_addBlock_ok F t m r c nr nc e : (r + nr <= rows m)%nat -> (c + nc <= cols m)%nat -> rows e = nr -> cols e = nc ->
  f_addBlock F t m r c nr nc e = Some (Mx (rows m) (cols m) (fun i j =>
    if (r <=? i) && (i <? r + nr) && (c <=? j) && (j <? c + nc)
    then F (i - r :: j - c :: t)%nat%list (at_ m (r + (i - r)) (c + (j - c))%nat :: at_ e (i - r) (j - c) :: nil)%list nil
    else at_ m i j)).
Proof.
  intros H1 H2 H3 H4. unfold f_addBlock. rewrite block_ok by assumption. cbn [obind].
  rewrite H3, H4, !Nat.eqb_refl. cbn [andb]. rewrite setBlock_ok by (cbn; congruence). reflexivity.
Qed.

(** ** Weighted products *)
Section Near.
Variables (u : Qc) (F : arith) (Ac : accurate u F).

Lemma times_near t k a x m w : near u k a x m -> near u (k + 1) (f_times F t a w) (x * w) (m * Qcabs w).
Proof using Ac.
  pose proof (proj1 Ac) as Hu. intro N.
  pose proof (F_near_0 u Hu F t k 1 (fun _ => a) (fun _ => x) (fun _ => m) (fun _ => w) (fun _ => w) (fun _ => Qcabs w) Ac) as G.
  unfold f_times. change ((a, w) :: nil)%list with (prods 1 (fun _ => a) (fun _ => w)).
  eapply near_eq; [apply G| |]; [|cbn [sum]; ring|cbn [sum]; ring].
  intros i _. eapply near_mono; [exact Hu|apply (near_mul u Hu k 0); [exact N|apply near_abs; exact Hu]|lia].
Qed.
(** one squared and weighted group of residuals added to [acc] *)
Lemma hw_near tg tg' a lev R (h hx hm t tx tm w : nat -> Qc) q qx qm : (2 * a + 1 <= lev)%nat ->
  (forall r, (r < R)%nat -> near u a (h r) (hx r) (hm r)) -> (forall r, (r < R)%nat -> near u a (t r) (tx r) (tm r)) ->
  near u lev q qx qm ->
  near u (lev + R + 1) (F tg (q :: nil)%list (prods R (fun r => f_times F (tg' r) (h r) (w r)) t))
    (qx + sum R (fun r => hx r * w r * tx r)) (qm + sum R (fun r => hm r * Qcabs (w r) * tm r)).
Proof using Ac.
  pose proof (proj1 Ac) as Hu. intros L Nh Nt Nq.
  apply (F_near_1 u Hu F tg lev R q qx qm _ (fun r => hx r * w r) (fun r => hm r * Qcabs (w r)) t tx tm Ac Nq).
  intros r Hr. eapply near_mono; [exact Hu|apply (near_mul u Hu (a + 1) a)|lia].
  - apply times_near. apply Nh. exact Hr.
  - apply Nt. exact Hr.
Qed.
Lemma hw_near0 tg tg' a R (h hx hm t tx tm w : nat -> Qc) :
  (forall r, (r < R)%nat -> near u a (h r) (hx r) (hm r)) -> (forall r, (r < R)%nat -> near u a (t r) (tx r) (tm r)) ->
  near u (2 * a + 1 + R) (F tg nil (prods R (fun r => f_times F (tg' r) (h r) (w r)) t))
    (sum R (fun r => hx r * w r * tx r)) (sum R (fun r => hm r * Qcabs (w r) * tm r)).
Proof using Ac.
  pose proof (proj1 Ac) as Hu. intros Nh Nt.
  apply (F_near_0 u Hu F tg (2 * a + 1) R _ (fun r => hx r * w r) (fun r => hm r * Qcabs (w r)) t tx tm Ac).
  intros r Hr. eapply near_mono; [exact Hu|apply (near_mul u Hu (a + 1) a)|lia].
  - apply times_near. apply Nh. exact Hr.
  - apply Nt. exact Hr.
Qed.
(** E' x0 + f, with or without an old value that is zero *)
Lemma lin_near tg lev n (e ex em x : nat -> Qc) f fx fm :
  (forall i, (i < n)%nat -> near u lev (e i) (ex i) (em i)) -> near u lev f fx fm ->
  near u (lev + n + 2) (F tg (f :: nil)%list (prods n e x)) (sum n (fun i => ex i * x i) + fx)
    (sum n (fun i => em i * Qcabs (x i)) + fm).
Proof using Ac.
  pose proof (proj1 Ac) as Hu. intros Ne Nf.
  eapply near_mono; [exact Hu|eapply near_eq|].
  - apply (F_near_1 u Hu F tg lev n f fx fm e ex em x x (fun i => Qcabs (x i)) Ac Nf).
    intros i Hi. eapply near_mono; [exact Hu|apply (near_mul u Hu lev 0); [apply Ne; exact Hi|apply near_abs; exact Hu]|lia].
  - ring.
  - ring.
  - lia.
Qed.
Lemma lin_near_old tg lev n (e ex em x : nat -> Qc) f fx fm :
  (forall i, (i < n)%nat -> near u lev (e i) (ex i) (em i)) -> near u lev f fx fm ->
  near u (lev + n + 2) (F tg (0 :: f :: nil)%list (prods n e x)) (sum n (fun i => ex i * x i) + fx)
    (sum n (fun i => em i * Qcabs (x i)) + fm).
Proof using Ac.
  pose proof (proj1 Ac) as Hu. intros Ne Nf.
  pose proof (F_near_sum u Hu F tg lev n e ex em x x (fun i => Qcabs (x i)) ((0, 0, 0) :: (f, fx, fm) :: nil)%list Ac) as G.
  unfold tr, tx, tm, lsum in G. cbn [map fst snd fold_right length] in G.
  replace (lev + n + 2)%nat with (lev + (2 + n))%nat by lia.
  eapply near_eq; [apply G| |]; [|..|ring|ring].
  - apply Forall_cons; [apply near_0; exact Hu|]. apply Forall_cons; [exact Nf|apply Forall_nil].
  - intros i Hi. eapply near_mono; [exact Hu|apply (near_mul u Hu lev 0); [apply Ne; exact Hi|apply near_abs; exact Hu]|lia].
Qed.
(** the sum of two numbers *)
Lemma two_near tg lev a ax am b bx bm : near u lev a ax am -> near u lev b bx bm ->
  near u (lev + 2) (F tg (a :: b :: nil)%list nil) (ax + bx) (am + bm).
Proof using Ac.
  pose proof (proj1 Ac) as Hu. intros Na Nb.
  pose proof (F_near u Hu F tg lev ((a, ax, am) :: (b, bx, bm) :: nil)%list nil Ac) as G.
  unfold tr, tx, tm, lsum in G. cbn [map fst snd fold_right length] in G.
  eapply near_eq; [apply G| |]; [|..|ring|ring].
  - apply Forall_cons; [exact Na|]. apply Forall_cons; [exact Nb|apply Forall_nil].
  - apply Forall_nil.
Qed.
End Near.

(** ** One update *)
Section Update.
Variables (u : Qc) (F : arith) (Ac : accurate u F) (K : nat) (ps : psys) (W : ps_wf ps) (X0 : vsize (x0 ps) = xDim ps)
  (FN : fnear u K ps).
Notation n := (xDim ps).
Notation m := (uDim ps).
Notation FU := (fullUDim ps).
Notation FX := (fullXDim ps).

(** the coefficients are near, at level [L] (and [L + n + 2] for c) *)
Definition f_result (L : nat) (c c' : cost) : Prop :=
  (forall i j, (i < FU)%nat -> (j < FU)%nat ->
     near u L (at_ (kQ c') i j) (kQf (pex ps) c i j) (kQf (pab ps) (absC c) i j)) /\
  (forall i j, (i < n)%nat -> (j < FU)%nat ->
     near u L (at_ (kE c') i j) (kEf (pex ps) c i j) (kEf (pab ps) (absC c) i j)) /\
  (forall j, (j < FU)%nat -> near u L (vget (kf c') j) (kff (pex ps) c j) (kff (pab ps) (absC c) j)) /\
  (forall j, (j < FU)%nat -> near u (L + n + 2) (vget (kc c') j)
     (sum n (fun i => kEf (pex ps) c i j * vget (x0 ps) i) + kff (pex ps) c j)
     (sum n (fun i => kEf (pab ps) (absC c) i j * Qcabs (vget (x0 ps) i)) + kff (pab ps) (absC c) j)).

(** the accumulation loops *)
Lemma facc_loop N1 (body : nat -> mx * mx * vec Qc -> option (mx * mx * vec Qc)) Rw
    (Tx Hx Tm Hm : nat -> nat -> nat -> Qc) (gx gm : nat -> nat -> Qc) (w wa : nat -> Qc) lev0 Q0 E0 f0 :
  rows Q0 = FU -> cols Q0 = FU -> rows E0 = n -> cols E0 = FU -> vsize f0 = FU ->
  (forall i j, (i < FU)%nat -> (j < FU)%nat -> at_ Q0 i j = 0) ->
  (forall i j, (i < n)%nat -> (j < FU)%nat -> at_ E0 i j = 0) ->
  (forall j, (j < FU)%nat -> vget f0 j = 0) ->
  (forall k Q E f, (k < N1)%nat -> rows Q = FU -> cols Q = FU -> rows E = n -> cols E = FU -> vsize f = FU ->
     exists Q' E' f', body k (Q, E, f) = Some (Q', E', f') /\
       rows Q' = FU /\ cols Q' = FU /\ rows E' = n /\ cols E' = FU /\ vsize f' = FU /\
       (forall i j lev q s, (i < FU)%nat -> (j < FU)%nat -> (lev0 <= lev)%nat -> near u lev (at_ Q i j) q s ->
          near u (lev + Rw + 1) (at_ Q' i j) (q + sum Rw (fun r => Tx k r i * w r * Tx k r j))
            (s + sum Rw (fun r => Tm k r i * wa r * Tm k r j))) /\
       (forall i j lev q s, (i < n)%nat -> (j < FU)%nat -> (lev0 <= lev)%nat -> near u lev (at_ E i j) q s ->
          near u (lev + Rw + 1) (at_ E' i j) (q + sum Rw (fun r => Hx k r i * w r * Tx k r j))
            (s + sum Rw (fun r => Hm k r i * wa r * Tm k r j))) /\
       (forall j lev q s, (j < FU)%nat -> (lev0 <= lev)%nat -> near u lev (vget f j) q s ->
          near u (lev + Rw + 1) (vget f' j) (q + sum Rw (fun r => gx k r * w r * Tx k r j))
            (s + sum Rw (fun r => gm k r * wa r * Tm k r j)))) ->
  exists Q E f, for_ 0 N1 body (Q0, E0, f0) = Some (Q, E, f) /\
    rows Q = FU /\ cols Q = FU /\ rows E = n /\ cols E = FU /\ vsize f = FU /\
    (forall i j, (i < FU)%nat -> (j < FU)%nat ->
       near u (lev0 + N1 * (Rw + 1)) (at_ Q i j) (formQ N1 Rw Tx w i j) (formQ N1 Rw Tm wa i j)) /\
    (forall i j, (i < n)%nat -> (j < FU)%nat ->
       near u (lev0 + N1 * (Rw + 1)) (at_ E i j) (formE N1 Rw Tx Hx w i j) (formE N1 Rw Tm Hm wa i j)) /\
    (forall j, (j < FU)%nat ->
       near u (lev0 + N1 * (Rw + 1)) (vget f j) (formf N1 Rw Tx gx w j) (formf N1 Rw Tm gm wa j)).
Proof using Ac.
  clear W X0 FN K. pose proof (proj1 Ac) as Hu. intros A1 A2 A3 A4 A5 ZQ ZE ZF B.
  destruct (for_inv (fun t (s : mx * mx * vec Qc) => let '(Q, E, f) := s in
    rows Q = FU /\ cols Q = FU /\ rows E = n /\ cols E = FU /\ vsize f = FU /\
    (forall i j, (i < FU)%nat -> (j < FU)%nat ->
       near u (lev0 + t * (Rw + 1)) (at_ Q i j) (formQ t Rw Tx w i j) (formQ t Rw Tm wa i j)) /\
    (forall i j, (i < n)%nat -> (j < FU)%nat ->
       near u (lev0 + t * (Rw + 1)) (at_ E i j) (formE t Rw Tx Hx w i j) (formE t Rw Tm Hm wa i j)) /\
    (forall j, (j < FU)%nat ->
       near u (lev0 + t * (Rw + 1)) (vget f j) (formf t Rw Tx gx w j) (formf t Rw Tm gm wa j)))
    0%nat N1 body (Q0, E0, f0)) as [[[Q E] f] [Eq Inv]].
  - lia.
  - repeat (split; [assumption|]). unfold formQ, formE, formf. cbn [sum]. split; [|split].
    + intros i j Hi Hj. rewrite ZQ by assumption. apply near_0. exact Hu.
    + intros i j Hi Hj. rewrite ZE by assumption. apply near_0. exact Hu.
    + intros j Hj. rewrite ZF by assumption. apply near_0. exact Hu.
  - intros t [[Q E] f] Ht [C1 [C2 [C3 [C4 [C5 [CQ [CE CF]]]]]]].
    destruct (B t Q E f ltac:(lia) C1 C2 C3 C4 C5) as [Q' [E' [f' [Eb [D1 [D2 [D3 [D4 [D5 [DQ [DE DF]]]]]]]]]]].
    exists (Q', E', f'). split; [exact Eb|]. repeat (split; [assumption|]).
    unfold formQ, formE, formf in *. cbn [Nat.add sum].
    replace (lev0 + S t * (Rw + 1))%nat with (lev0 + t * (Rw + 1) + Rw + 1)%nat by lia. split; [|split]; intros.
    + apply DQ; [assumption|assumption|lia|]. apply CQ; assumption.
    + apply DE; [assumption|assumption|lia|]. apply CE; assumption.
    + apply DF; [assumption|lia|]. apply CF; assumption.
  - exists Q, E, f. split; [exact Eq|exact Inv].
Qed.

Notation TX c := (kT (pex ps) c).
Notation TM c := (kT (pab ps) (absC c)).
Notation HX c := (kH (pex ps) c).
Notation HM c := (kH (pab ps) (absC c)).
Notation GX c := (kG (pex ps) c).
Notation GM c := (kG (pab ps) (absC c)).

(** rows of M times the prediction *)
Lemma comb_near t len (e r x s : nat -> Qc) : (forall q, (q < len)%nat -> near u K (r q) (x q) (s q)) ->
  near u (K + len) (F t nil (prods len e r)) (sum len (fun q => e q * x q)) (sum len (fun q => Qcabs (e q) * s q)).
Proof using Ac.
  clear W X0 FN. pose proof (proj1 Ac) as Hu. intro N.
  apply (F_near_0 u Hu F t K len e e (fun q => Qcabs (e q)) r x s Ac).
  intros q Hq. apply (near_mul u Hu 0 K); [apply near_abs; exact Hu|apply N; exact Hq].
Qed.
Lemma comb_near1 t len c (e r x s : nat -> Qc) : (forall q, (q < len)%nat -> near u K (r q) (x q) (s q)) ->
  near u (K + len + 1) (F t (c :: nil)%list (prods len e r)) (sum len (fun q => e q * x q) + c)
    (sum len (fun q => Qcabs (e q) * s q) + Qcabs c).
Proof using Ac.
  clear W X0 FN. pose proof (proj1 Ac) as Hu. intro N. eapply near_eq.
  - apply (F_near_1 u Hu F t K len c c (Qcabs c) e e (fun q => Qcabs (e q)) r x s Ac); [apply near_abs; exact Hu|].
    intros q Hq. apply (near_mul u Hu 0 K); [apply near_abs; exact Hu|apply N; exact Hq].
  - ring.
  - ring.
Qed.

Ltac shp := cbn [rows cols vsize vopp]; congruence.
Ltac steps :=
  repeat first
    [ rewrite f_mmul_ok by shp
    | rewrite f_mmadd_ok by shp
    | rewrite f_resid_ok by shp
    | rewrite f_hwt_ok by (try exact I; try split; shp)
    | rewrite f_gwt_ok by (try exact I; shp)
    | rewrite f_lin_of_ok by (try exact I; shp)
    | progress cbn [obind rows cols at_ vsize vget vopp old_m old_v app] ].

(** the classes with one group of residuals *)
Lemma f_full_result a c c' (T H : nat -> nat -> Qc) (g : nat -> Qc) tq te tf tc sq se sf :
  kK (pex ps) c = 1%nat ->
  (forall r j, (r < vsize (kp c))%nat -> (j < FU)%nat -> near u a (T r j) (TX c 0%nat r j) (TM c 0%nat r j)) ->
  (forall r i, (r < vsize (kp c))%nat -> (i < n)%nat -> near u a (H r i) (HX c 0%nat r i) (HM c 0%nat r i)) ->
  (forall r, (r < vsize (kp c))%nat -> near u a (g r) (GX c 0%nat r) (GM c 0%nat r)) ->
  (forall i j, (i < FU)%nat -> (j < FU)%nat -> at_ (kQ c') i j = F (tq i j) nil
     (prods (vsize (kp c)) (fun r => f_times F (sq r i j) (T r i) (vget (kw c) r)) (fun r => T r j))) ->
  (forall i j, (i < n)%nat -> (j < FU)%nat -> at_ (kE c') i j = F (te i j) nil
     (prods (vsize (kp c)) (fun r => f_times F (se r i j) (H r i) (vget (kw c) r)) (fun r => T r j))) ->
  (forall j, (j < FU)%nat -> vget (kf c') j = F (tf j) nil
     (prods (vsize (kp c)) (fun r => f_times F (sf r j) (g r) (vget (kw c) r)) (fun r => T r j))) ->
  (forall j, (j < FU)%nat -> vget (kc c') j = F (tc j) (vget (kf c') j :: nil)%list
     (prods n (fun i => at_ (kE c') i j) (vget (x0 ps)))) ->
  f_result (2 * a + 1 + (vsize (kp c) + 1)) c c'.
Proof using Ac.
  clear W X0 FN K. pose proof (proj1 Ac) as Hu. intros H1 NT NH NG EQ EE EF EC.
  assert (K2 : kK (pab ps) (absC c) = 1%nat) by exact H1.
  assert (RQ : forall i j, (i < FU)%nat -> (j < FU)%nat ->
     near u (2 * a + 1 + (vsize (kp c) + 1)) (at_ (kQ c') i j) (kQf (pex ps) c i j) (kQf (pab ps) (absC c) i j)).
  { intros i j Hi Hj. rewrite EQ by assumption. unfold kQf, formQ. rewrite H1, K2. cbn [sum].
    eapply near_mono; [exact Hu|eapply near_eq|].
    - apply (hw_near0 u F Ac (tq i j) (fun r => sq r i j) a (vsize (kp c)) (fun r => T r i) (fun r => TX c 0%nat r i)
        (fun r => TM c 0%nat r i) (fun r => T r j) (fun r => TX c 0%nat r j) (fun r => TM c 0%nat r j) (vget (kw c)));
        intros r Hr; apply NT; assumption.
    - symmetry. apply Qcplus_0_l.
    - symmetry. apply Qcplus_0_l.
    - lia. }
  assert (RE : forall i j, (i < n)%nat -> (j < FU)%nat ->
     near u (2 * a + 1 + (vsize (kp c) + 1)) (at_ (kE c') i j) (kEf (pex ps) c i j) (kEf (pab ps) (absC c) i j)).
  { intros i j Hi Hj. rewrite EE by assumption. unfold kEf, formE. rewrite H1, K2. cbn [sum].
    eapply near_mono; [exact Hu|eapply near_eq|].
    - apply (hw_near0 u F Ac (te i j) (fun r => se r i j) a (vsize (kp c)) (fun r => H r i) (fun r => HX c 0%nat r i)
        (fun r => HM c 0%nat r i) (fun r => T r j) (fun r => TX c 0%nat r j) (fun r => TM c 0%nat r j) (vget (kw c)));
        intros r Hr; [apply NH|apply NT]; assumption.
    - symmetry. apply Qcplus_0_l.
    - symmetry. apply Qcplus_0_l.
    - lia. }
  assert (RF : forall j, (j < FU)%nat ->
     near u (2 * a + 1 + (vsize (kp c) + 1)) (vget (kf c') j) (kff (pex ps) c j) (kff (pab ps) (absC c) j)).
  { intros j Hj. rewrite EF by assumption. unfold kff, formf. rewrite H1, K2. cbn [sum].
    eapply near_mono; [exact Hu|eapply near_eq|].
    - apply (hw_near0 u F Ac (tf j) (fun r => sf r j) a (vsize (kp c)) g (fun r => GX c 0%nat r)
        (fun r => GM c 0%nat r) (fun r => T r j) (fun r => TX c 0%nat r j) (fun r => TM c 0%nat r j) (vget (kw c)));
        intros r Hr; [apply NG|apply NT]; assumption.
    - symmetry. apply Qcplus_0_l.
    - symmetry. apply Qcplus_0_l.
    - lia. }
  split; [exact RQ|]. split; [exact RE|]. split; [exact RF|].
  intros j Hj. rewrite EC by exact Hj.
  apply (lin_near u F Ac (tc j) _ n (fun i => at_ (kE c') i j) (fun i => kEf (pex ps) c i j)
    (fun i => kEf (pab ps) (absC c) i j) (vget (x0 ps))).
  - intros i Hi. apply RE; assumption.
  - apply RF. exact Hj.
Qed.

Lemma fxN : FX = (nrUStep ps * n + n)%nat.
Proof using W. clear X0 FN. rewrite (wf_fx ps W), (wf_nx ps W). lia. Qed.
Lemma mono2 k r x s len : near u (K + len) r x s -> (k = K + len + 2)%nat -> near u k r x s.
Proof using Ac. clear W X0 FN. intros N ->. eapply near_mono; [exact (proj1 Ac)|exact N|lia]. Qed.
Lemma mono1 k r x s len : near u (K + len + 1) r x s -> (k = K + len + 2)%nat -> near u k r x s.
Proof using Ac. clear W X0 FN. intros N ->. eapply near_mono; [exact (proj1 Ac)|exact N|lia]. Qed.
Lemma resid_near t len p (e r x s : nat -> Qc) : (forall q, (q < len)%nat -> near u K (r q) (x q) (s q)) ->
  near u (K + len + 1) (F t (- p :: nil)%list (prods len e r)) (sum len (fun q => e q * x q) - p)
    (sum len (fun q => Qcabs (e q) * s q) - - Qcabs p).
Proof using Ac.
  intro N. eapply near_eq; [apply (comb_near1 t len (- p) e r x s N)|ring|]. rewrite Qcabs_opp. ring.
Qed.

Lemma f_trajC_full_ok c : kk c = TrajectoryCost -> kfull c = true -> k_shape ps c ->
  exists c', f_k_update F ps c = Some c' /\ k_same c c' /\ k_shape ps c' /\
    f_result (2 * (K + cols (kM c) + 2) + 1 + (vsize (kp c) + 1)) c c'.
Proof using Ac W X0 FN.
  intros HK HF [Sz [Hw [Hd _]]]. unfold k_dims in Hd. rewrite HK, HF in Hd. destruct Hd as [Hr Hc].
  pose proof (wf_Phr ps W) as P1. pose proof (wf_Phc ps W) as P2. pose proof (wf_Psr ps W) as P3. pose proof (wf_Psc ps W) as P4.
  pose proof (wf_xi ps W) as P5.
  unfold f_k_update. rewrite HK. unfold f_trajC_update. rewrite HF. steps.
  eexists. split; [reflexivity|]. split; [repeat split|]. split.
  - unfold k_shape, k_sized, k_dims. cbn. rewrite HK, HF. repeat split; try assumption; try congruence; try discriminate.
  - eapply f_full_result; cbn [set_qp kQ kE kf kc at_ vget]; rewrite ?Hr, ?P2;
      [unfold kK; rewrite HK, HF; reflexivity| | | |intros; reflexivity|intros; reflexivity|intros; reflexivity|intros; reflexivity].
    + intros r j Hrr Hj. unfold kT. cbn [absC set_data kk kfull]. rewrite HK, HF. rewrite Hc. eapply mono2; [|reflexivity].
      apply comb_near. intros q Hq. apply (fn_Psi u K ps FN); assumption.
    + intros r i Hrr Hi. unfold kH. cbn [absC set_data kk kfull]. rewrite HK, HF. rewrite Hc. eapply mono2; [|reflexivity].
      apply comb_near. intros q Hq. apply (fn_Phi u K ps FN); assumption.
    + intros r Hrr. unfold kG. cbn [absC set_data kk kfull]. rewrite HK, HF. rewrite Hc. eapply mono1; [|reflexivity].
      apply resid_near. intros q Hq. apply (fn_xi u K ps FN); assumption.
Qed.

Lemma f_mixedC_full_ok c : kk c = MixedCost -> kfull c = true -> k_shape ps c ->
  exists c', f_k_update F ps c = Some c' /\ k_same c c' /\ k_shape ps c' /\
    f_result (2 * (K + cols (kM c) + 2) + 1 + (vsize (kp c) + 1)) c c'.
Proof using Ac W X0 FN.
  intros HK HF [Sz [Hw [Hd _]]]. unfold k_dims in Hd. rewrite HK, HF in Hd. destruct Hd as [Hr [Hr2 [Hc Hc2]]].
  pose proof (wf_Phr ps W) as P1. pose proof (wf_Phc ps W) as P2. pose proof (wf_Psr ps W) as P3. pose proof (wf_Psc ps W) as P4.
  pose proof (wf_xi ps W) as P5.
  unfold f_k_update. rewrite HK. unfold f_mixedC_update. rewrite HF. steps.
  eexists. split; [reflexivity|]. split; [repeat split|]. split.
  - unfold k_shape, k_sized, k_dims. cbn. rewrite HK, HF. repeat split; try assumption; try congruence; try discriminate.
  - eapply f_full_result; cbn [set_qp kQ kE kf kc at_ vget]; rewrite ?Hr, ?P2;
      [unfold kK; rewrite HK, HF; reflexivity| | | |intros; reflexivity|intros; reflexivity|intros; reflexivity|intros; reflexivity].
    + intros r j Hrr Hj. unfold kT. cbn [absC set_data kk kfull]. rewrite HK, HF. rewrite Hc. eapply mono1; [|reflexivity].
      apply comb_near1. intros q Hq. apply (fn_Psi u K ps FN); assumption.
    + intros r i Hrr Hi. unfold kH. cbn [absC set_data kk kfull]. rewrite HK, HF. rewrite Hc. eapply mono2; [|reflexivity].
      apply comb_near. intros q Hq. apply (fn_Phi u K ps FN); assumption.
    + intros r Hrr. unfold kG. cbn [absC set_data kk kfull]. rewrite HK, HF. rewrite Hc. eapply mono1; [|reflexivity].
      apply resid_near. intros q Hq. apply (fn_xi u K ps FN); assumption.
Qed.

Lemma f_targetC_ok c : kk c = TargetCost -> k_shape ps c ->
  exists c', f_k_update F ps c = Some c' /\ k_same c c' /\ k_shape ps c' /\
    f_result (2 * (K + cols (kM c) + 2) + 1 + (vsize (kp c) + 1)) c c'.
Proof using Ac W X0 FN.
  intros HK [Sz [Hw [Hd _]]]. unfold k_dims in Hd. rewrite HK in Hd. destruct Hd as [Hr Hc].
  pose proof (wf_Phr ps W) as P1. pose proof (wf_Phc ps W) as P2. pose proof (wf_Psr ps W) as P3. pose proof (wf_Psc ps W) as P4.
  pose proof (wf_xi ps W) as P5. pose proof fxN as P6.
  unfold f_k_update. rewrite HK. unfold f_targetC_update.
  rewrite bottomRows_ok by lia. steps. rewrite bottomRows_ok by lia. steps. rewrite tail_ok by lia. steps.
  eexists. split; [reflexivity|]. split; [repeat split|]. split.
  - unfold k_shape, k_sized, k_dims. cbn. rewrite HK. repeat split; try assumption; try congruence; try discriminate.
  - eapply f_full_result; cbn [set_qp kQ kE kf kc at_ vget]; rewrite ?Hr, ?P2;
      [unfold kK; rewrite HK; reflexivity| | | |intros; reflexivity|intros; reflexivity|intros; reflexivity|intros; reflexivity].
    + intros r j Hrr Hj. unfold kT. cbn [absC set_data kk kfull]. rewrite HK. rewrite Hc. eapply mono2; [|reflexivity].
      apply comb_near. intros q Hq. rewrite P3. replace (FX - n + q)%nat with (nrUStep ps * n + q)%nat by lia.
      assert (B : (nrUStep ps * n + q < FX)%nat) by (change (q < n)%nat in Hq; lia). exact (fn_Psi u K ps FN _ j B Hj).
    + intros r i Hrr Hi. unfold kH. cbn [absC set_data kk kfull]. rewrite HK. rewrite Hc. eapply mono2; [|reflexivity].
      apply comb_near. intros q Hq. rewrite P1. replace (FX - n + q)%nat with (nrUStep ps * n + q)%nat by lia.
      assert (B : (nrUStep ps * n + q < FX)%nat) by (change (q < n)%nat in Hq; lia). exact (fn_Phi u K ps FN _ i B Hi).
    + intros r Hrr. unfold kG. cbn [absC set_data kk kfull]. rewrite HK. rewrite Hc. eapply mono1; [|reflexivity].
      apply resid_near. intros q Hq. rewrite P5. replace (FX - n + q)%nat with (nrUStep ps * n + q)%nat by lia.
      assert (B : (nrUStep ps * n + q < FX)%nat) by (change (q < n)%nat in Hq; lia). exact (fn_xi u K ps FN _ B).
Qed.

(** ControlCost: only the weighted products are rounded *)
Lemma opp_near k p : near u k (- p) (- p) (- - Qcabs p).
Proof using Ac. eapply near_eq; [apply near_abs; exact (proj1 Ac)|reflexivity|]. rewrite Qcabs_opp. ring. Qed.
Lemma quad_N t t' (N : mx) (w : vec Qc) R i j :
  near u (1 + R) (F t nil (prods R (fun r => f_times F (t' r) (at_ N r i) (vget w r)) (fun r => at_ N r j)))
    (sum R (fun r => at_ N r i * vget w r * at_ N r j)) (sum R (fun r => Qcabs (at_ N r i) * Qcabs (vget w r) * Qcabs (at_ N r j))).
Proof using Ac.
  apply (hw_near0 u F Ac t t' 0 R (fun r => at_ N r i) (fun r => at_ N r i) (fun r => Qcabs (at_ N r i))
    (fun r => at_ N r j) (fun r => at_ N r j) (fun r => Qcabs (at_ N r j)) (vget w));
    intros r _; apply near_abs; exact (proj1 Ac).
Qed.
Lemma lin_N t t' (N : mx) (w p : vec Qc) R j :
  near u (1 + R) (F t nil (prods R (fun r => f_times F (t' r) (- vget p r) (vget w r)) (fun r => at_ N r j)))
    (sum R (fun r => - vget p r * vget w r * at_ N r j))
    (sum R (fun r => - - Qcabs (vget p r) * Qcabs (vget w r) * Qcabs (at_ N r j))).
Proof using Ac.
  apply (hw_near0 u F Ac t t' 0 R (fun r => - vget p r) (fun r => - vget p r) (fun r => - - Qcabs (vget p r))
    (fun r => at_ N r j) (fun r => at_ N r j) (fun r => Qcabs (at_ N r j)) (vget w)).
  - intros r _. apply opp_near.
  - intros r _. apply near_abs. exact (proj1 Ac).
Qed.
Lemma zero_lin nx K' R (T : nat -> nat -> nat -> Qc) (w x : nat -> Qc) j :
  sum nx (fun i => formE K' R T (fun _ _ _ => 0) w i j * x i) = 0.
Proof using.
  apply sum_zero. intros i _. unfold formE. rewrite (sum_zero K'); [ring|].
  intros k _. apply sum_zero. intros; ring.
Qed.
Lemma formE_zero K' R (T : nat -> nat -> nat -> Qc) (w : nat -> Qc) i j : formE K' R T (fun _ _ _ => 0) w i j = 0.
Proof using. unfold formE. apply sum_zero. intros k _. apply sum_zero. intros; ring. Qed.

Lemma f_ctrlC_full_ok c : kk c = ControlCost -> kfull c = true -> k_shape ps c ->
  exists c', f_k_update F ps c = Some c' /\ k_same c c' /\ k_shape ps c' /\
    f_result (1 + vsize (kp c)) c c'.
Proof using Ac.
  clear W X0 FN. pose proof (proj1 Ac) as Hu.
  intros HK HF [[S1 [S2 [S3 [S4 [S5 S6]]]]] [Hw [Hd _]]]. unfold k_dims in Hd. rewrite HK, HF in Hd. destruct Hd as [Hr Hc].
  unfold f_k_update. rewrite HK. unfold f_ctrlC_update. rewrite HF. steps.
  eexists. split; [reflexivity|]. split; [repeat split|]. split.
  - unfold k_shape, k_sized, k_dims. cbn. rewrite HK, HF. repeat split; try assumption; try congruence; try discriminate.
  - assert (RF : forall j t t', near u (1 + vsize (kp c)) (F t nil (prods (vsize (kp c))
      (fun r => f_times F (t' r) (- vget (kp c) r) (vget (kw c) r)) (fun r => at_ (kN c) r j)))
        (kff (pex ps) c j) (kff (pab ps) (absC c) j)).
    { intros j t t'. unfold kff, formf, kK, kG, kT. cbn [absC set_data kk kfull]. rewrite HK, HF. cbn [sum].
      eapply near_eq; [apply lin_N| |]; symmetry; apply Qcplus_0_l. }
    unfold f_result. cbn [set_qp kQ kE kf kc at_ vget msetZero]. rewrite ?Hr. split; [|split; [|split]].
    + intros i j Hi Hj. unfold kQf, formQ, kK, kT. cbn [absC set_data kk kfull]. rewrite HK, HF. cbn [sum].
      eapply near_eq; [apply quad_N| |]; symmetry; apply Qcplus_0_l.
    + intros i j Hi Hj. unfold kEf, kH. cbn [absC set_data kk kfull]. rewrite HK. rewrite !formE_zero. apply near_0. exact Hu.
    + intros j Hj. apply RF.
    + intros j Hj. eapply near_mono; [exact Hu|eapply near_eq; [apply RF| |]|lia].
      * unfold kEf, kH. cbn [absC set_data kk kfull]. rewrite HK. rewrite zero_lin. symmetry. apply Qcplus_0_l.
      * unfold kEf, kH. cbn [absC set_data kk kfull]. rewrite HK. rewrite zero_lin. symmetry. apply Qcplus_0_l.
Qed.

Lemma f_ctrlC_step_ok c : kk c = ControlCost -> kfull c = false -> k_shape ps c ->
  exists c', f_k_update F ps c = Some c' /\ k_same c c' /\ k_shape ps c' /\
    f_result (1 + vsize (kp c)) c c'.
Proof using Ac W X0.
  pose proof (proj1 Ac) as Hu.
  intros HK HF [[S1 [S2 [S3 [S4 [S5 S6]]]]] [Hw [Hd HZ]]]. specialize (HZ HK HF).
  unfold k_dims in Hd. rewrite HK, HF in Hd. destruct Hd as [Hr Hc].
  unfold f_k_update. rewrite HK. unfold f_ctrlC_update. rewrite HF.
  rewrite f_hwt_ok by (try exact I; congruence). cbn [obind]. rewrite f_gwt_ok by (cbn; try exact I; congruence). cbn [obind].
  pose proof (closed_ready ps (psA ps) (psB ps) (psd ps) (x0 ps) W X0) as R.
  match goal with |- context [ctrlC_step ps ?m ?v] =>
    destruct (ctrlC_loop (pex ps) R m v (kQ c) (kc c) (kE c) (kf c) Hc Hc Hc S1 S2 S3 S4 S5 S6)
    as [Q [cv [E [f [Eq [T1 [T2 [T3 [T4 [T5 [T6 TT]]]]]]]]]]] end.
  cbn [pex closed nrUStep uDim xDim fullUDim] in TT, T1, T2, T3, T4, T5, T6.
  match type of Eq with for_ 0 ?a (ctrlC_step ?b ?mm ?vv) ?s = _ => change (for_ 0 (nrUStep ps) (ctrlC_step ps mm vv) s = Some (Q, cv, E, f)) in Eq end.
  rewrite Eq. cbn [obind]. eexists. split; [reflexivity|]. split; [repeat split|].
  cbn [at_ vsize vget vopp old_m old_v] in TT. split.
  - unfold k_shape, k_sized, k_dims. cbn. rewrite HK, HF. repeat (split; [repeat split; assumption|]).
    intros _ _ k l i j Hk Hl Hkl Hi Hj. rewrite (proj1 (TT k i Hk Hi)) by assumption.
    rewrite (proj2 (Nat.eqb_neq k l) Hkl). apply HZ; assumption.
  - assert (RF : forall l b t t', (l < nrUStep ps)%nat -> (b < m)%nat -> near u (1 + vsize (kp c)) (F t nil (prods (vsize (kp c))
      (fun r => f_times F (t' r) (- vget (kp c) r) (vget (kw c) r)) (fun r => at_ (kN c) r b)))
        (kff (pex ps) c (l * m + b)) (kff (pab ps) (absC c) (l * m + b))).
    { intros l b t t' Hl Hb. unfold kff, formf, kK, kG, kT, kR. cbn [absC set_data kk kfull pex pab closed nrUStep uDim kp kw kN vget vsize].
      rewrite HK, HF.
      eapply near_eq; [apply lin_N| |].
      - rewrite (blk_lin m (nrUStep ps) (vsize (kp c)) (kN c) (vget (kw c)) (fun i => - vget (kp c) i)) by assumption. reflexivity.
      - rewrite (blk_lin m (nrUStep ps) (vsize (kp c)) (amx (kN c)) (vget (avec (kw c))) (fun i => - - Qcabs (vget (kp c) i))) by assumption.
        reflexivity. }
    unfold f_result. cbn [set_qp kQ kE kf kc]. split; [|split; [|split]].
    + intros i j Hi Hj. destruct (fu_split (pex ps) R i Hi) as [k [a [Hk [Ha ->]]]]. destruct (fu_split (pex ps) R j Hj) as [l [b [Hl [Hb ->]]]].
      cbn [pex closed nrUStep uDim] in Hk, Ha, Hl, Hb. cbn [pex closed uDim].
      rewrite (proj1 (TT k a Hk Ha)) by assumption.
      unfold kQf, formQ, kK, kT, kR. cbn [absC set_data kk kfull pex pab closed nrUStep uDim kp kw kN vget vsize]. rewrite HK, HF.
      rewrite (blk_quad m (nrUStep ps) (vsize (kp c)) (kN c) (vget (kw c))) by assumption.
      rewrite (blk_quad m (nrUStep ps) (vsize (kp c)) (amx (kN c)) (vget (avec (kw c)))) by assumption.
      destruct (Nat.eqb_spec k l) as [<-|El]; [rewrite Hr; apply quad_N|]. rewrite HZ by assumption. apply near_0. exact Hu.
    + intros i j Hi Hj. destruct (fu_split (pex ps) R j Hj) as [l [b [Hl [Hb ->]]]]. cbn [pex closed nrUStep uDim] in Hl, Hb. cbn [pex closed uDim].
      rewrite (proj1 (proj2 (TT l b Hl Hb))) by assumption.
      unfold kEf, kH. cbn [absC set_data kk kfull]. rewrite HK. rewrite !formE_zero. apply near_0. exact Hu.
    + intros j Hj. destruct (fu_split (pex ps) R j Hj) as [l [b [Hl [Hb ->]]]]. cbn [pex closed nrUStep uDim] in Hl, Hb.
      cbn [pex closed uDim]. rewrite (proj1 (proj2 (proj2 (TT l b Hl Hb)))). apply RF; assumption.
    + intros j Hj. destruct (fu_split (pex ps) R j Hj) as [l [b [Hl [Hb ->]]]]. cbn [pex closed nrUStep uDim] in Hl, Hb.
      cbn [pex closed uDim]. rewrite (proj2 (proj2 (proj2 (TT l b Hl Hb)))).
      eapply near_mono; [exact Hu|eapply near_eq; [apply (RF l b); assumption| |]|lia].
      * unfold kEf, kH. cbn [absC set_data kk kfull]. rewrite HK. rewrite zero_lin. symmetry. apply Qcplus_0_l.
      * unfold kEf, kH. cbn [absC set_data kk kfull]. rewrite HK. rewrite zero_lin. symmetry. apply Qcplus_0_l.
Qed.

Ltac blocks k := rewrite ?(block_ok _ (k * xDim ps) 0) by lia; rewrite ?(seg_ok _ (k * xDim ps)) by lia; cbn [obind].

Lemma f_trajC_step_ok c : kk c = TrajectoryCost -> kfull c = false -> k_shape ps c -> k_zero ps c ->
  exists c', f_k_update F ps c = Some c' /\ k_same c c' /\ k_shape ps c' /\
    f_result (2 * (K + cols (kM c) + 2) + 1 + nrXStep ps * (vsize (kp c) + 1)) c c'.
Proof using Ac W X0 FN.
  pose proof (proj1 Ac) as Hu.
  intros HK HF [[S1 [S2 [S3 [S4 [S5 S6]]]]] [Hw [Hd _]]] Z.
  unfold k_dims in Hd. rewrite HK, HF in Hd. destruct Hd as [Hr Hc].
  unfold k_zero, k_acc in Z. rewrite HK, HF in Z. destruct (Z eq_refl) as [ZQ [ZE [ZF _]]]. clear Z.
  pose proof (wf_Phr ps W) as P1. pose proof (wf_Phc ps W) as P2. pose proof (wf_Psr ps W) as P3. pose proof (wf_Psc ps W) as P4.
  pose proof (wf_xi ps W) as P5. pose proof (wf_fx ps W) as Fx.
  unfold f_k_update. rewrite HK. unfold f_trajC_update. rewrite HF.
  destruct (facc_loop (nrXStep ps) (f_trajC_step F ps (kM c) (kp c) (kw c)) (vsize (kp c)) (TX c) (HX c) (TM c) (HM c)
    (GX c) (GM c) (vget (kw c)) (vget (avec (kw c))) (2 * (K + cols (kM c) + 2) + 1)
    (kQ c) (kE c) (kf c) S1 S2 S4 S5 S6 ZQ ZE ZF) as [Q [E [f [Eq [T1 [T2 [T3 [T4 [T5 [TQ [TE TF]]]]]]]]]]].
  - intros k Q E f Hk B1 B2 B3 B4 B5. assert (Bk : (k * xDim ps + xDim ps <= FX)%nat) by nia.
    assert (NT : forall t r j, (r < vsize (kp c))%nat -> (j < FU)%nat -> near u (K + cols (kM c) + 2)
      (F t nil (prods (cols (kM c)) (at_ (kM c) r) (fun q => at_ (psPsi ps) (k * n + q) (0 + j)))) (TX c k r j) (TM c k r j)).
    { intros t r j Hrr Hj. unfold kT. cbn [absC set_data kk kfull]. rewrite HK, HF. rewrite Hc. eapply mono2; [|reflexivity].
      apply comb_near. intros q Hq. change (q < n)%nat in Hq. assert (B : (k * n + q < FX)%nat) by lia.
      exact (fn_Psi u K ps FN _ j B Hj). }
    assert (NH : forall t r i, (r < vsize (kp c))%nat -> (i < n)%nat -> near u (K + cols (kM c) + 2)
      (F t nil (prods (cols (kM c)) (at_ (kM c) r) (fun q => at_ (psPhi ps) (k * n + q) (0 + i)))) (HX c k r i) (HM c k r i)).
    { intros t r i Hrr Hi. unfold kH. cbn [absC set_data kk kfull]. rewrite HK, HF. rewrite Hc. eapply mono2; [|reflexivity].
      apply comb_near. intros q Hq. change (q < n)%nat in Hq. assert (B : (k * n + q < FX)%nat) by lia.
      exact (fn_Phi u K ps FN _ i B Hi). }
    assert (NG : forall t r, (r < vsize (kp c))%nat -> near u (K + cols (kM c) + 2)
      (F t (- vget (kp c) r :: nil)%list (prods (cols (kM c)) (at_ (kM c) r) (fun q => vget (psxi ps) (k * n + q)))) (GX c k r) (GM c k r)).
    { intros t r Hrr. unfold kG. cbn [absC set_data kk kfull]. rewrite HK, HF. rewrite Hc. eapply mono1; [|reflexivity].
      apply resid_near. intros q Hq. change (q < n)%nat in Hq. assert (B : (k * n + q < FX)%nat) by lia.
      exact (fn_xi u K ps FN _ B). }
    unfold f_trajC_step. blocks k. steps. blocks k. steps. blocks k. steps.
    eexists; eexists; eexists. split; [reflexivity|]. cbn [rows cols at_ vsize vget].
    repeat (split; [congruence|]). rewrite Hr. split; [|split].
    + intros i j lev q s Hi Hj L N. apply (hw_near u F Ac _ _ (K + cols (kM c) + 2)); [exact L| | |exact N];
        intros r Hrr; apply NT; assumption.
    + intros i j lev q s Hi Hj L N. apply (hw_near u F Ac _ _ (K + cols (kM c) + 2)); [exact L| | |exact N];
        intros r Hrr; [apply NH|apply NT]; assumption.
    + intros j lev q s Hj L N. apply (hw_near u F Ac _ _ (K + cols (kM c) + 2)); [exact L| | |exact N];
        intros r Hrr; [apply NG|apply NT]; assumption.
  - rewrite Eq. cbn [obind]. rewrite f_lin_of_ok by (try exact I; congruence). cbn [obind].
    eexists. split; [reflexivity|]. split; [repeat split|]. split.
    + unfold k_shape, k_sized, k_dims. cbn. rewrite HK, HF. repeat split; try assumption; try congruence; try discriminate.
    + unfold f_result, kQf, kEf, kff, kK. cbn [absC set_data kk kfull]. rewrite HK, HF. cbn [kQ kc kE kf set_qp vget old_v app].
      split; [exact TQ|]. split; [exact TE|]. split; [exact TF|]. intros j Hj. rewrite T3.
      apply (lin_near u F Ac); [intros i Hi; apply TE; assumption|apply TF; exact Hj].
Qed.

Lemma f_mixed_tmp t lev k (t0 N : mx) rw i j x s : (k < nrUStep ps)%nat -> (i < rw)%nat -> (j < FU)%nat ->
  near u lev (at_ t0 i j) x s ->
  near u (lev + 2) (if (0 <=? i) && (i <? 0 + rw) && (k * m <=? j) && (j <? k * m + m)
     then F (i - 0 :: j - k * m :: t)%nat%list (at_ t0 (0 + (i - 0)) (k * m + (j - k * m))%nat :: at_ N (i - 0) (j - k * m) :: nil)%list nil
     else at_ t0 i j)
   (x + blkN m N k i j) (s + blkN m (amx N) k i j).
Proof using Ac W X0.
  pose proof (proj1 Ac) as Hu. pose proof (closed_ready ps (psA ps) (psB ps) (psd ps) (x0 ps) W X0) as R.
  intros Hk Hi Hj Nt. destruct (fu_split (pex ps) R j Hj) as [l [b [Hl [Hb ->]]]]. cbn [pex closed nrUStep uDim] in *.
  unfold blkN. rewrite blk_quot, blk_rem by exact Hb.
  rewrite (proj2 (Nat.ltb_lt i (0 + rw))) by lia. cbn [Nat.leb andb].
  rewrite (in_blk (pex ps) R) by exact Hb. destruct (Nat.eqb_spec l k) as [->|E].
  - rewrite Nat.sub_0_r. cbn [Nat.add]. replace (k * m + b - k * m)%nat with b by lia. apply two_near; [exact Ac|exact Nt|].
    apply near_abs. exact Hu.
  - eapply near_mono; [exact Hu|eapply near_eq; [exact Nt|ring|ring]|lia].
Qed.

Lemma f_mixedC_step_ok c : kk c = MixedCost -> kfull c = false -> k_shape ps c -> k_zero ps c ->
  exists c', f_k_update F ps c = Some c' /\ k_same c c' /\ k_shape ps c' /\
    f_result (2 * (K + cols (kM c) + 2) + 1 + nrUStep ps * (vsize (kp c) + 1)) c c'.
Proof using Ac W X0 FN.
  pose proof (proj1 Ac) as Hu.
  intros HK HF [[S1 [S2 [S3 [S4 [S5 S6]]]]] [Hw [Hd _]]] Z.
  unfold k_dims in Hd. rewrite HK, HF in Hd. destruct Hd as [Hr [Hr2 [Hc Hc2]]].
  unfold k_zero, k_acc in Z. rewrite HK, HF in Z. destruct (Z eq_refl) as [ZQ [ZE [ZF ZC]]]. clear Z.
  pose proof (wf_Phr ps W) as P1. pose proof (wf_Phc ps W) as P2. pose proof (wf_Psr ps W) as P3. pose proof (wf_Psc ps W) as P4.
  pose proof (wf_xi ps W) as P5. pose proof (wf_fx ps W) as Fx. pose proof (wf_nx ps W) as Nx. pose proof (wf_fu ps W) as Fu.
  unfold f_k_update. rewrite HK. unfold f_mixedC_update. rewrite HF.
  destruct (facc_loop (nrUStep ps) (f_mixedC_step F ps (kM c) (kN c) (kp c) (kw c)) (vsize (kp c)) (TX c) (HX c) (TM c) (HM c)
    (GX c) (GM c) (vget (kw c)) (vget (avec (kw c))) (2 * (K + cols (kM c) + 2) + 1)
    (kQ c) (kE c) (kf c) S1 S2 S4 S5 S6 ZQ ZE ZF) as [Q [E [f [Eq [T1 [T2 [T3 [T4 [T5 [TQ [TE TF]]]]]]]]]]].
  - intros k Q E f Hk B1 B2 B3 B4 B5. assert (Bk : (k * xDim ps + xDim ps <= FX)%nat) by nia.
    assert (Bu : (k * m + m <= FU)%nat) by nia.
    assert (NH : forall t r i, (r < vsize (kp c))%nat -> (i < n)%nat -> near u (K + cols (kM c) + 2)
      (F t nil (prods (cols (kM c)) (at_ (kM c) r) (fun q => at_ (psPhi ps) (k * n + q) (0 + i)))) (HX c k r i) (HM c k r i)).
    { intros t r i Hrr Hi. unfold kH. cbn [absC set_data kk kfull]. rewrite HK, HF. rewrite Hc. eapply mono2; [|reflexivity].
      apply comb_near. intros q Hq. change (q < n)%nat in Hq. assert (B : (k * n + q < FX)%nat) by lia.
      exact (fn_Phi u K ps FN _ i B Hi). }
    assert (NG : forall t r, (r < vsize (kp c))%nat -> near u (K + cols (kM c) + 2)
      (F t (- vget (kp c) r :: nil)%list (prods (cols (kM c)) (at_ (kM c) r) (fun q => vget (psxi ps) (k * n + q)))) (GX c k r) (GM c k r)).
    { intros t r Hrr. unfold kG. cbn [absC set_data kk kfull]. rewrite HK, HF. rewrite Hc. eapply mono1; [|reflexivity].
      apply resid_near. intros q Hq. change (q < n)%nat in Hq. assert (B : (k * n + q < FX)%nat) by lia.
      exact (fn_xi u K ps FN _ B). }
    unfold f_mixedC_step. blocks k. steps. rewrite f_addBlock_ok by (cbn [rows cols]; lia). steps.
    blocks k. steps. blocks k. steps.
    eexists; eexists; eexists. split; [reflexivity|]. cbn [rows cols at_ vsize vget].
    repeat (split; [congruence|]). rewrite Hr.
    assert (NT : forall (tg : nat -> nat -> list nat) t r j, (r < vsize (kp c))%nat -> (j < FU)%nat -> near u (K + cols (kM c) + 2)
      (if (0 <=? r) && (r <? 0 + vsize (kp c)) && (k * m <=? j) && (j <? k * m + m)
       then F (r - 0 :: j - k * m :: t)%nat%list
              (F (tg (0 + (r - 0)) (k * m + (j - k * m)))%nat nil (prods (cols (kM c)) (at_ (kM c) (0 + (r - 0))%nat)
                 (fun q => at_ (psPsi ps) (k * n + q) (0 + (k * m + (j - k * m))))) :: at_ (kN c) (r - 0) (j - k * m) :: nil)%list nil
       else F (tg r j) nil (prods (cols (kM c)) (at_ (kM c) r) (fun q => at_ (psPsi ps) (k * n + q) (0 + j))))
      (TX c k r j) (TM c k r j)).
    { intros tg t r j Hrr Hj. unfold kT. cbn [absC set_data kk kfull]. rewrite HK, HF. rewrite Hc.
      apply (f_mixed_tmp t (K + n) k
        (Mx (vsize (kp c)) FU (fun r j => F (tg r j) nil (prods n (at_ (kM c) r) (fun q => at_ (psPsi ps) (k * n + q) (0 + j)))))
        (kN c) (vsize (kp c)) r j); [exact Hk|exact Hrr|exact Hj|]. cbn [at_].
      apply comb_near. intros q Hq. change (q < n)%nat in Hq. assert (B : (k * n + q < FX)%nat) by lia.
      exact (fn_Psi u K ps FN _ j B Hj). }
    split; [|split].
    + intros i j lev q s Hi Hj L N. apply (hw_near u F Ac _ _ (K + cols (kM c) + 2)); [exact L| | |exact N];
        intros r Hrr; apply (NT (fun a b => (a :: b :: k :: 206 :: 2 :: nil)%nat%list)); assumption.
    + intros i j lev q s Hi Hj L N. apply (hw_near u F Ac _ _ (K + cols (kM c) + 2)); [exact L| | |exact N];
        intros r Hrr; [apply NH|apply (NT (fun a b => (a :: b :: k :: 206 :: 2 :: nil)%nat%list))]; assumption.
    + intros j lev q s Hj L N. apply (hw_near u F Ac _ _ (K + cols (kM c) + 2)); [exact L| | |exact N];
        intros r Hrr; [apply NG|apply (NT (fun a b => (a :: b :: k :: 206 :: 2 :: nil)%nat%list))]; assumption.
  - rewrite Eq. cbn [obind]. rewrite f_lin_of_ok by congruence. cbn [obind].
    eexists. split; [reflexivity|]. split; [repeat split|]. split.
    + unfold k_shape, k_sized, k_dims. cbn. rewrite HK, HF. repeat split; try assumption; try congruence; try discriminate.
    + unfold f_result, kQf, kEf, kff, kK. cbn [absC set_data kk kfull]. rewrite HK, HF. cbn [kQ kc kE kf set_qp vget old_v app].
      split; [exact TQ|]. split; [exact TE|]. split; [exact TF|]. intros j Hj. rewrite T3, ZC by exact Hj.
      apply (lin_near_old u F Ac); [intros i Hi; apply TE; assumption|apply TF; exact Hj].
Qed.
End Update.

