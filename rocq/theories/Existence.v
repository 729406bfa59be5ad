(** Existence.v -- a strictly convex quadratic program over the rationals with a feasible point has a solution.
    By elimination: unconstrained minimization coordinate by coordinate, then the constraints one at a time. *)
From Verif Require Import Base Eigen Spec Controller SpecEndToEnd Convex Solvers SpecSolvers.

Definition fn := nat -> Qc.
(** x + t d *)
Definition move (x : fn) (t : Qc) (d : fn) : fn := fun i => (x i + t * d i)%Qc.
Definition agree (n : nat) (x y : fn) : Prop := forall i, i < n -> x i = y i.
Definition local (n : nat) (f : fn -> Qc) : Prop := forall x y, agree n x y -> f x = f y.

(** affine functions of the first [n] coordinates *)
Definition affine (n : nat) (g : fn -> Qc) : Prop :=
  local n g /\ exists l : fn -> Qc, forall x t d, g (move x t d) = (g x + t * l d)%Qc.
(** convex quadratic functions, constant along the directions where they are affine *)
Record quad_fn (n : nat) (f : fn -> Qc) (l : fn -> fn -> Qc) (q : fn -> Qc) (b : fn -> fn -> Qc) : Prop := QuadFn {
  qf_local : local n f;
  qf_eq : forall x t d, f (move x t d) = (f x + t * l x d + t * t * q d)%Qc;
  qf_ll : forall x s e d, l (move x s e) d = (l x d + s * b e d)%Qc;
  qf_nn : forall d, (0 <= q d)%Qc;
  qf_z : forall d, q d = 0%Qc -> forall x, l x d = 0%Qc }.
Definition quadratic (n : nat) (f : fn -> Qc) : Prop := exists l q b, quad_fn n f l q b.
(** affine maps *)
Definition affmap (n : nat) (T L : fn -> fn) : Prop :=
  (forall x y, agree n x y -> agree n (T x) (T y)) /\ forall x t d, agree n (T (move x t d)) (move (T x) t (L d)).

Lemma two_inj (a b : Qc) : (a + a = b + b)%Qc -> a = b.
Proof. intro H. apply Qcle_antisym; qc_lra. Qed.
Lemma l_local n f l q b : quad_fn n f l q b -> forall x y d, agree n x y -> l x d = l y d.
Proof.
  intros H x y d A. pose proof (qf_eq _ _ _ _ _ H x 1%Qc d) as E1. pose proof (qf_eq _ _ _ _ _ H x (- (1))%Qc d) as E2.
  pose proof (qf_eq _ _ _ _ _ H y 1%Qc d) as E3. pose proof (qf_eq _ _ _ _ _ H y (- (1))%Qc d) as E4.
  rewrite (qf_local _ _ _ _ _ H (move x 1%Qc d) (move y 1%Qc d)) in E1 by (intros i Hi; unfold move; rewrite (A i Hi); reflexivity).
  rewrite (qf_local _ _ _ _ _ H (move x (- (1))%Qc d) (move y (- (1))%Qc d)) in E2 by (intros i Hi; unfold move; rewrite (A i Hi); reflexivity).
  rewrite (qf_local _ _ _ _ _ H x y A) in E1, E2. rewrite E3 in E1. rewrite E4 in E2.
  apply Qcle_antisym; [|]; qc_lra.
Qed.
Lemma b_self n f l q b : quad_fn n f l q b -> forall d, b d d = (q d + q d)%Qc.
Proof.
  intros H d. set (x := fun _ : nat => 0%Qc).
  pose proof (qf_eq _ _ _ _ _ H (move x 1%Qc d) 1%Qc d) as E1. pose proof (qf_eq _ _ _ _ _ H x 1%Qc d) as E2.
  pose proof (qf_eq _ _ _ _ _ H x (1 + 1)%Qc d) as E3. rewrite (qf_ll _ _ _ _ _ H) in E1.
  rewrite (qf_local _ _ _ _ _ H (move (move x 1%Qc d) 1%Qc d) (move x (1 + 1)%Qc d)) in E1 by (intros i _; unfold move; ring).
  rewrite E3, E2 in E1. assert (G : (b d d = (1 + 1) * (1 + 1) * q d - q d - q d)%Qc).
  { apply Qcle_antisym; qc_lra. } rewrite G. ring.
Qed.
Lemma quad_comp n f l q b T L : quad_fn n f l q b -> affmap n T L ->
  quad_fn n (fun x => f (T x)) (fun x d => l (T x) (L d)) (fun d => q (L d)) (fun e d => b (L e) (L d)).
Proof.
  intros H [A1 A2]. split.
  - intros x y A. apply (qf_local _ _ _ _ _ H). apply A1. exact A.
  - intros x t d. rewrite (qf_local _ _ _ _ _ H _ _ (A2 x t d)). apply (qf_eq _ _ _ _ _ H).
  - intros x s e d. rewrite (l_local _ _ _ _ _ H _ _ (L d) (A2 x s e)). apply (qf_ll _ _ _ _ _ H).
  - intro d. apply (qf_nn _ _ _ _ _ H).
  - intros d Hd x. apply (qf_z _ _ _ _ _ H). exact Hd.
Qed.
Lemma affine_comp n g T L : affine n g -> affmap n T L -> affine n (fun x => g (T x)).
Proof.
  intros [Lg [l Hl]] [A1 A2]. split.
  - intros x y A. apply Lg. apply A1. exact A.
  - exists (fun d => l (L d)). intros x t d. rewrite (Lg _ _ (A2 x t d)). apply Hl.
Qed.
Lemma quad_convex n f : quadratic n f -> forall x y s, (0 <= s)%Qc -> (s <= 1)%Qc ->
  (f (move x s (fun i => y i - x i)) <= f x + s * (f y - f x))%Qc.
Proof.
  intros [l [q [b H]]] x y s S0 S1. set (d := fun i => (y i - x i)%Qc).
  pose proof (qf_eq _ _ _ _ _ H x 1%Qc d) as E1.
  rewrite (qf_local _ _ _ _ _ H (move x 1%Qc d) y) in E1 by (intros i _; unfold move, d; ring).
  rewrite (qf_eq _ _ _ _ _ H), E1. pose proof (qf_nn _ _ _ _ _ H d) as N.
  assert (K : (0 <= s * (1 - s) * q d)%Qc).
  { apply qc_mul_nonneg; [apply qc_mul_nonneg; [exact S0|qc_lra]|exact N]. }
  assert (E : (f x + s * (f x + 1 * l x d + 1 * 1 * q d - f x) = f x + s * l x d + s * s * q d + s * (1 - s) * q d)%Qc) by ring.
  rewrite E. qc_lra.
Qed.
Lemma affine_seg n g : affine n g -> forall x y s, g (move x s (fun i => y i - x i)%Qc) = (g x + s * (g y - g x))%Qc.
Proof.
  intros [Lg [l Hl]] x y s. set (d := fun i => (y i - x i)%Qc). pose proof (Hl x 1%Qc d) as E.
  rewrite (Lg (move x 1%Qc d) y) in E by (intros i _; unfold move, d; ring). rewrite Hl, E. ring.
Qed.

(** ** No constraint *)
Definition unit_at (k : nat) : fn := fun i => if Nat.eqb i k then 1%Qc else 0%Qc.
Definition ignores (f : fn -> Qc) (k : nat) : Prop := forall x t, f (move x t (unit_at k)) = f x.
Lemma ignore_all n f : local n f -> (forall j, j < n -> ignores f j) -> forall x, f x = f (fun _ => 0%Qc).
Proof.
  intros Lf Ig x.
  assert (G : forall k, k <= n -> f x = f (fun i => if i <? k then 0%Qc else x i)).
  { induction k as [|k IH]; intro Hk.
    - apply Lf. intros i _. destruct (Nat.ltb_spec i 0); [lia|reflexivity].
    - rewrite IH by lia. rewrite <- (Ig k ltac:(lia) _ (- x k)%Qc). apply Lf. intros i _. unfold move, unit_at.
      destruct (Nat.eqb_spec i k) as [E|E]; destruct (Nat.ltb_spec i k), (Nat.ltb_spec i (S k)); try lia; [rewrite E|..]; ring. }
  rewrite (G n (le_n n)). apply Lf. intros i Hi. destruct (Nat.ltb_spec i n); [reflexivity|lia].
Qed.
Lemma eliminate n f k : quadratic n f -> exists F, quadratic n F /\ (forall y, (F y <= f y)%Qc) /\ (forall y, exists x, f x = F y) /\
  ignores F k /\ forall j, ignores f j -> ignores F j.
Proof.
  intros [l [q [b H]]]. set (e := unit_at k).
  destruct (Qc_eq_dec (q e) 0%Qc) as [Z|NZ].
  - exists f. split; [exists l, q, b; exact H|]. split; [intro; apply Qcle_refl|]. split; [intro y; exists y; reflexivity|]. split; [|auto].
    intros x t. rewrite (qf_eq _ _ _ _ _ H). fold e. rewrite Z, (qf_z _ _ _ _ _ H e Z x). ring.
  - assert (P : (0 < q e)%Qc).
    { pose proof (qf_nn _ _ _ _ _ H e) as N. apply Qcle_lt_or_eq in N. destruct N as [N|N]; [exact N|]. exfalso. apply NZ. symmetry. exact N. }
    set (sg := fun y => (- (l y e) / (q e + q e))%Qc).
    assert (D : (q e + q e)%Qc <> 0%Qc) by (intro K; assert (X : (0 < q e + q e)%Qc) by qc_lra; rewrite K in X; discriminate X).
    set (T := fun y => move y (sg y) e).
    set (Ld := fun d => move d (- (b d e) / (q e + q e))%Qc e).
    assert (AM : affmap n T Ld).
    { split.
      - intros x y A i Hi. unfold T, move, sg. rewrite (l_local _ _ _ _ _ H x y e A), (A i Hi). reflexivity.
      - intros x t d i _. assert (S : sg (move x t d) = (sg x + t * (- (b d e) / (q e + q e)))%Qc) by (unfold sg; rewrite (qf_ll _ _ _ _ _ H); field; exact D).
        unfold T. rewrite S. unfold Ld, move. ring. }
    exists (fun y => f (T y)). split; [eexists _, _, _; exact (quad_comp _ _ _ _ _ _ _ H AM)|].
    split; [|split; [intro y; exists (T y); reflexivity|split]].
    + intro y. unfold T. rewrite (qf_eq _ _ _ _ _ H).
      assert (E : (f y + sg y * l y e + sg y * sg y * q e = f y - q e * (sg y * sg y))%Qc).
      { assert (X : (l y e = - (sg y) * (q e + q e))%Qc) by (unfold sg; field; exact D). rewrite X. ring. }
      rewrite E. assert (K : (0 <= q e * (sg y * sg y))%Qc) by (apply qc_mul_nonneg; [apply Qclt_le_weak; exact P|apply qc_sq_nonneg]). qc_lra.
    + intros x t. apply (qf_local _ _ _ _ _ H). intros i _. fold e.
      assert (S : sg (move x t e) = (sg x - t)%Qc) by (unfold sg; rewrite (qf_ll _ _ _ _ _ H), (b_self _ _ _ _ _ H); field; exact D).
      unfold T. rewrite S. unfold move. ring.
    + intros j Ij x t. unfold T. set (u := unit_at j) in *.
      assert (El : l (move x t u) e = l x e).
      { pose proof (qf_eq _ _ _ _ _ H (move x t u) 1%Qc e) as E1. pose proof (qf_eq _ _ _ _ _ H (move x t u) (- (1))%Qc e) as E2.
        pose proof (qf_eq _ _ _ _ _ H x 1%Qc e) as E3. pose proof (qf_eq _ _ _ _ _ H x (- (1))%Qc e) as E4.
        rewrite (qf_local _ _ _ _ _ H _ (move (move x 1%Qc e) t u)) in E1 by (intros i _; unfold move; ring).
        rewrite (qf_local _ _ _ _ _ H _ (move (move x (- (1))%Qc e) t u)) in E2 by (intros i _; unfold move; ring).
        unfold u in E1, E2. rewrite !Ij in E1, E2. fold u in E1, E2. apply Qcle_antisym; qc_lra. }
      unfold sg. rewrite El. rewrite (qf_local _ _ _ _ _ H _ (move (move x (- l x e / (q e + q e))%Qc e) t u)) by (intros i _; unfold move; ring).
      unfold u. apply Ij.
Qed.
Lemma minimum_free n f : quadratic n f -> exists x, forall y, (f x <= f y)%Qc.
Proof.
  intro H.
  assert (G : forall k, exists F, quadratic n F /\ (forall y, (F y <= f y)%Qc) /\ (forall y, exists x, f x = F y) /\ forall j, j < k -> ignores F j).
  { induction k as [|k [F [QF [LE [IM IG]]]]].
    - exists f. split; [exact H|]. split; [intro; apply Qcle_refl|]. split; [intro y; exists y; reflexivity|]. intros; lia.
    - destruct (eliminate n F k QF) as [F' [QF' [LE' [IM' [IG1 IG2]]]]]. exists F'. split; [exact QF'|].
      split; [intro y; eapply Qcle_trans; [apply LE'|apply LE]|]. split.
      + intro y. destruct (IM' y) as [z Ez]. destruct (IM z) as [x Ex]. exists x. congruence.
      + intros j Hj. destruct (Nat.eq_dec j k) as [->|]; [exact IG1|apply IG2, IG; lia]. }
  destruct (G n) as [F [[l [q [b QF]]] [LE [IM IG]]]]. destruct (IM (fun _ => 0%Qc)) as [x Ex]. exists x. intro y. rewrite Ex.
  rewrite <- (ignore_all n F (qf_local _ _ _ _ _ QF) IG y). apply LE.
Qed.

(** ** Constraints g x <= 0, one at a time *)
Definition nonpos (gs : list (fn -> Qc)) (x : fn) : Prop := Forall (fun g => (g x <= 0)%Qc) gs.
Lemma nonpos_seg n gs : Forall (affine n) gs -> forall x y s, (0 <= s)%Qc -> (s <= 1)%Qc -> nonpos gs x -> nonpos gs y ->
  nonpos gs (move x s (fun i => y i - x i)%Qc).
Proof.
  intros A x y s S0 S1 Hx Hy. unfold nonpos in *. rewrite Forall_forall in *. intros g Hg.
  rewrite (affine_seg n g (A g Hg)). specialize (Hx g Hg). specialize (Hy g Hg).
  assert (K1 : (0 <= (1 - s) * - g x)%Qc) by (apply qc_mul_nonneg; qc_lra). assert (K2 : (0 <= s * - g y)%Qc) by (apply qc_mul_nonneg; [exact S0|qc_lra]).
  assert (E : (g x + s * (g y - g x) = - ((1 - s) * - g x + s * - g y))%Qc) by ring. rewrite E. qc_lra.
Qed.
Lemma crossing (a b : Qc) : (a <= 0)%Qc -> (0 < b)%Qc -> exists s, (0 <= s)%Qc /\ (s <= 1)%Qc /\ (a + s * (b - a) = 0)%Qc.
Proof.
  intros A B. assert (P : (0 < b - a)%Qc) by qc_lra. assert (NZ : (b - a)%Qc <> 0%Qc) by (intro E; rewrite E in P; discriminate P).
  exists ((- a) / (b - a))%Qc. assert (E : ((- a) / (b - a) * (b - a) = - a)%Qc) by (field; exact NZ). set (s := ((- a) / (b - a))%Qc) in *.
  split; [|split].
  - destruct (Qclt_le_dec s 0%Qc) as [X|X]; [|exact X]. exfalso.
    assert (K : (0 < (- s) * (b - a))%Qc) by (apply qc_mul_pos; [qc_lra|exact P]).
    assert (E' : ((- s) * (b - a) = - (s * (b - a)))%Qc) by ring. rewrite E', E in K. qc_lra.
  - destruct (Qclt_le_dec 1%Qc s) as [X|X]; [|exact X]. exfalso.
    assert (K : (0 < (s - 1) * (b - a))%Qc) by (apply qc_mul_pos; [qc_lra|exact P]).
    assert (E' : ((s - 1) * (b - a) = s * (b - a) - (b - a))%Qc) by ring. rewrite E', E in K. qc_lra.
  - rewrite E. ring.
Qed.
Theorem minimum_exists : forall n gs f, quadratic n f -> Forall (affine n) gs -> (exists x, nonpos gs x) ->
  exists x, nonpos gs x /\ forall y, nonpos gs y -> (f x <= f y)%Qc.
Proof.
  intros n gs. remember (length gs) as k eqn:Ek. revert gs Ek.
  induction k as [|k IH]; intros [|g gs] Ek f QF AF [x0 N0]; try discriminate Ek; [|injection Ek as Ek].
  - destruct (minimum_free n f QF) as [x Hx]. exists x. split; [constructor|]. intros y _. apply Hx.
  - inversion AF as [|? ? Ag Ags]; subst. inversion N0 as [|? ? G0 N0']; subst.
    destruct (IH gs eq_refl f QF Ags (ex_intro _ x0 N0')) as [xs [Nx Mx]].
    destruct (Qclt_le_dec 0%Qc (g xs)) as [Pg|Pg]; [|exists xs; split; [constructor; assumption|intros y Ny; inversion Ny; subst; auto]].
    destruct Ag as [Lg [lam Hl]].
    set (d0 := fun i => (xs i - x0 i)%Qc).
    assert (Ld : lam d0 <> 0%Qc).
    { pose proof (Hl x0 1%Qc d0) as E. rewrite (Lg (move x0 1%Qc d0) xs) in E by (intros i _; unfold move, d0; ring).
      intro Z. rewrite Z in E. rewrite E in Pg. assert (X : (0 < g x0)%Qc) by qc_lra. qc_lra. }
    set (T := fun z => move z (- (g z) / lam d0)%Qc d0).
    set (L := fun d => move d (- (lam d) / lam d0)%Qc d0).
    assert (AM : affmap n T L).
    { split.
      - intros x y A i Hi. unfold T, move. rewrite (Lg x y A), (A i Hi). reflexivity.
      - intros x t d i _. unfold T. rewrite Hl. unfold L, move. field. exact Ld. }
    assert (G0T : forall z, g (T z) = 0%Qc).
    { intro z. unfold T. rewrite Hl. field. exact Ld. }
    assert (FIX : forall w, g w = 0%Qc -> agree n (T w) w).
    { intros w Hw i _. unfold T, move. rewrite Hw. field. exact Ld. }
    assert (QT : quadratic n (fun z => f (T z))).
    { destruct QF as [l [q [b QF]]]. eexists _, _, _. exact (quad_comp _ _ _ _ _ _ _ QF AM). }
    assert (AT : Forall (affine n) (map (fun h z => h (T z)) gs)).
    { rewrite Forall_forall in *. intros h' Hh. apply in_map_iff in Hh. destruct Hh as [h [<- Hh]]. apply (affine_comp n h T L); [apply Ags; exact Hh|exact AM]. }
    assert (NT : forall z, nonpos (map (fun h z => h (T z)) gs) z <-> nonpos gs (T z)).
    { intro z. unfold nonpos. rewrite Forall_map. reflexivity. }
    assert (NL : forall x y, agree n x y -> nonpos gs x -> nonpos gs y).
    { intros x y A Hx. unfold nonpos in *. rewrite Forall_forall in *. intros h Hh. destruct (Ags h Hh) as [Lh _]. rewrite <- (Lh x y A). apply Hx. exact Hh. }
    assert (CR : forall y, nonpos (g :: gs) y -> exists w, g w = 0%Qc /\ nonpos gs w /\ (f w <= f y)%Qc).
    { intros y Ny. inversion Ny as [|? ? Gy Ny']; subst. destruct (crossing (g y) (g xs) Gy Pg) as [s [S0 [S1 Es]]].
      exists (move y s (fun i => xs i - y i)%Qc). split; [|split].
      - rewrite (affine_seg n g); [exact Es|]. split; [exact Lg|]. exists lam. exact Hl.
      - apply (nonpos_seg n); assumption.
      - eapply Qcle_trans; [apply (quad_convex n f QF y xs s S0 S1)|]. pose proof (Mx y Ny') as M.
        assert (K : (0 <= s * (f y - f xs))%Qc) by (apply qc_mul_nonneg; [exact S0|qc_lra]).
        assert (E : (s * (f xs - f y) = - (s * (f y - f xs)))%Qc) by ring. rewrite E. qc_lra. }
    destruct (IH (map (fun h z => h (T z)) gs) (eq_sym (map_length _ gs)) (fun z => f (T z)) QT AT) as [z [Nz Mz]].
    { destruct (CR x0 N0) as [w [Gw [Nw _]]]. exists w. apply NT. apply (NL w); [|exact Nw]. intros i Hi. symmetry. apply (FIX w Gw i Hi). }
    exists (T z). split.
    + constructor; [rewrite G0T; apply Qcle_refl|]. apply NT. exact Nz.
    + intros y Ny. destruct (CR y Ny) as [w [Gw [Nw Le]]]. eapply Qcle_trans; [|exact Le].
      assert (Lf : local n f) by (destruct QF as [l [q [b QF]]]; apply (qf_local _ _ _ _ _ QF)).
      rewrite <- (Lf (T w) w (FIX w Gw)). apply Mz. apply NT. apply (NL w); [|exact Nw]. intros i Hi. symmetry. apply (FIX w Gw i Hi).
Qed.

(** ** Quadratic programs *)
Lemma apply_move k M x t d i : apply k M (move x t d) i = (apply k M x i + t * apply k M d i)%Qc.
Proof. unfold apply, move. rewrite <- sum_scal_l, <- sum_add. apply sum_ext. intros; ring. Qed.
Lemma affine_row n (a : fn) (s y : Qc) : affine n (fun x => s * (sum n (fun j => a j * x j) - y))%Qc.
Proof.
  split.
  - intros x z A. f_equal. f_equal. apply sum_ext. intros j Hj. rewrite (A j Hj). reflexivity.
  - exists (fun d => s * sum n (fun j => a j * d j))%Qc. intros x t d.
    rewrite (sum_ext n _ (fun j => a j * x j + t * (a j * d j))%Qc) by (intros; unfold move; ring). rewrite sum_add, sum_scal_l. ring.
Qed.
Lemma affine_const n (y : Qc) : affine n (fun _ => y).
Proof. split; [intros x z _; reflexivity|]. exists (fun _ => 0%Qc). intros. ring. Qed.
Lemma affine_coord n i (s y : Qc) : i < n -> affine n (fun x => s * (x i - y))%Qc.
Proof.
  intro Hi. split.
  - intros x z A. rewrite (A i Hi). reflexivity.
  - exists (fun d => s * d i)%Qc. intros. unfold move. ring.
Qed.

(** the constraint [v <= e] / [e <= v] / [v = e] as functions to be kept nonpositive *)
Definition at_most (v : fn -> Qc -> Qc -> Qc) (e : ext) : list (fn -> Qc) :=
  match e with PInf => [] | Fin y => [fun x => v x 1%Qc y] | NInf => [fun _ => 1%Qc] end.
Definition at_least (v : fn -> Qc -> Qc -> Qc) (e : ext) : list (fn -> Qc) :=
  match e with NInf => [] | Fin y => [fun x => v x (- (1))%Qc y] | PInf => [fun _ => 1%Qc] end.
Definition row_fn (n : nat) (a : fn) : fn -> Qc -> Qc -> Qc := fun x s y => (s * (sum n (fun j => a j * x j) - y))%Qc.
Definition coord_fn (i : nat) : fn -> Qc -> Qc -> Qc := fun x s y => (s * (x i - y))%Qc.
Definition qp_fns (q : qp) : list (fn -> Qc) :=
  let n := vsize (qc q) in
  concat (map (fun i => at_most (row_fn n (at_ (qAeq q) i)) (vget (qbeq q) i) ++ at_least (row_fn n (at_ (qAeq q) i)) (vget (qbeq q) i))
              (seq 0 (rows (qAeq q)))) ++
  concat (map (fun i => at_most (row_fn n (at_ (qAineq q) i)) (vget (qbineq q) i)) (seq 0 (rows (qAineq q)))) ++
  concat (map (fun i => at_least (coord_fn i) (vget (qlb q) i) ++ at_most (coord_fn i) (vget (qub q) i)) (seq 0 n)).
Lemma nonpos_app l1 l2 x : nonpos (l1 ++ l2) x <-> nonpos l1 x /\ nonpos l2 x.
Proof. unfold nonpos. apply Forall_app. Qed.
Lemma nonpos_concat (F : nat -> list (fn -> Qc)) k x : nonpos (concat (map F (seq 0 k))) x <-> forall i, i < k -> nonpos (F i) x.
Proof.
  unfold nonpos. rewrite Forall_concat, Forall_map, Forall_forall. split; intros H i Hi.
  - apply H. apply in_seq. lia.
  - apply in_seq in Hi. apply H. lia.
Qed.
Lemma not_1_le_0 : ~ (1 <= 0)%Qc. Proof. intro H. apply H. reflexivity. Qed.
Lemma nonpos_at_most v e x a : (forall s y, v x s y = (s * (a - y))%Qc) -> (nonpos (at_most v e) x <-> q_le_ext a e).
Proof.
  intro Hv. unfold nonpos, at_most. destruct e as [|y|]; cbn.
  - rewrite Forall_cons_iff. split; [intros [K _]; exact (not_1_le_0 K)|tauto].
  - rewrite Forall_cons_iff, Hv. split; [intros [K _]; qc_lra|]. intro K. split; [qc_lra|constructor].
  - split; [tauto|constructor].
Qed.
Lemma nonpos_at_least v e x a : (forall s y, v x s y = (s * (a - y))%Qc) -> (nonpos (at_least v e) x <-> ext_le_q e a).
Proof.
  intro Hv. unfold nonpos, at_least. destruct e as [|y|]; cbn.
  - split; [tauto|constructor].
  - rewrite Forall_cons_iff, Hv. split; [intros [K _]; qc_lra|]. intro K. split; [qc_lra|constructor].
  - rewrite Forall_cons_iff. split; [intros [K _]; exact (not_1_le_0 K)|tauto].
Qed.
Lemma eq_both a e : q_le_ext a e /\ ext_le_q e a <-> q_eq_ext a e.
Proof.
  unfold q_eq_ext. destruct e as [|y|]; cbn; split; try tauto; try discriminate.
  - intros [K1 K2]. f_equal. apply Qcle_antisym; assumption.
  - intro K. injection K as ->. split; apply Qcle_refl.
Qed.
Lemma qp_fns_ok nv ne ni q x : well_sized nv ne ni q -> (nonpos (qp_fns q) x <-> feasible q x).
Proof.
  intros [_ [_ [C [E1 [E2 [_ [I1 [I2 [_ [L _]]]]]]]]]]. unfold qp_fns, feasible. rewrite !nonpos_app, !nonpos_concat, C, E2, I2, L.
  unfold rows_hold, within_bounds, cmp.
  assert (A1 : forall M i e, nonpos (at_most (row_fn nv (at_ M i)) e) x <-> q_le_ext (apply nv (at_ M) x i) e) by (intros; apply nonpos_at_most; reflexivity).
  assert (A2 : forall M i e, nonpos (at_least (row_fn nv (at_ M i)) e) x <-> ext_le_q e (apply nv (at_ M) x i)) by (intros; apply nonpos_at_least; reflexivity).
  assert (A3 : forall i e, nonpos (at_most (coord_fn i) e) x <-> q_le_ext (x i) e) by (intros; apply nonpos_at_most; reflexivity).
  assert (A4 : forall i e, nonpos (at_least (coord_fn i) e) x <-> ext_le_q e (x i)) by (intros; apply nonpos_at_least; reflexivity).
  split; intros [H1 [H2 H3]]; (split; [|split]); intros i Hi; specialize (H1 i); specialize (H2 i); specialize (H3 i); rewrite ?nonpos_app, ?A1, ?A2, ?A3, ?A4 in *.
  - apply eq_both. auto.
  - auto.
  - auto.
  - apply eq_both. auto.
  - auto.
  - auto.
Qed.
Lemma qp_fns_affine q : Forall (affine (vsize (qc q))) (qp_fns q).
Proof.
  assert (M : forall v e, (forall s y, affine (vsize (qc q)) (fun x => v x s y)) -> Forall (affine (vsize (qc q))) (at_most v e)).
  { intros v [|y|] H; cbn; constructor; try (apply H || apply affine_const); constructor. }
  assert (L : forall v e, (forall s y, affine (vsize (qc q)) (fun x => v x s y)) -> Forall (affine (vsize (qc q))) (at_least v e)).
  { intros v [|y|] H; cbn; constructor; try (apply H || apply affine_const); constructor. }
  unfold qp_fns. rewrite !Forall_app, !Forall_concat, !Forall_map, !Forall_forall.
  split; [|split]; intros i Hi; rewrite ?Forall_app.
  - split; [apply M|apply L]; intros; apply affine_row.
  - apply M. intros; apply affine_row.
  - apply in_seq in Hi. split; [apply L|apply M]; intros; apply affine_coord; lia.
Qed.
Lemma qp_quadratic q : pos_def (vsize (qc q)) (at_ (qQ q)) -> quadratic (vsize (qc q)) (qp_value q).
Proof.
  intro PD. set (n := vsize (qc q)) in *. set (Q := at_ (qQ q)) in *. set (c := vget (qc q)).
  exists (fun x d => half * (sum n (fun i => x i * apply n Q d i) + sum n (fun i => d i * apply n Q x i)) + sum n (fun i => c i * d i))%Qc.
  exists (fun d => half * sum n (fun i => d i * apply n Q d i))%Qc.
  exists (fun e d => half * (sum n (fun i => e i * apply n Q d i) + sum n (fun i => d i * apply n Q e i)))%Qc.
  assert (LA : forall x y i, agree n x y -> apply n Q x i = apply n Q y i).
  { intros x y i A. apply sum_ext. intros j Hj. rewrite (A j Hj). reflexivity. }
  assert (Z : forall d, sum n (fun i => d i * apply n Q d i)%Qc = 0%Qc -> agree n d (fun _ => 0%Qc)).
  { intros d Hd i Hi. destruct (Qc_eq_dec (d i) 0%Qc) as [E|E]; [exact E|]. exfalso.
    assert (P : (0 < sum n (fun i => d i * apply n Q d i))%Qc) by (apply PD; exists i; auto). rewrite Hd in P. discriminate P. }
  assert (H2 : half <> 0%Qc) by (intro K; apply (f_equal this) in K; discriminate K).
  split.
  - intros x y A. unfold qp_value, objective. f_equal; [f_equal|]; apply sum_ext; intros i Hi; rewrite (A i Hi); [|reflexivity]. f_equal. apply LA. exact A.
  - intros x t d. unfold qp_value, objective. fold n Q c.
    rewrite (sum_ext n _ (fun i => x i * apply n Q x i + t * (x i * apply n Q d i) + t * (d i * apply n Q x i) + t * t * (d i * apply n Q d i))%Qc)
      by (intros i _; rewrite apply_move; unfold move; ring).
    rewrite (sum_ext n (fun i => c i * move x t d i)%Qc (fun i => c i * x i + t * (c i * d i))%Qc) by (intros; unfold move; ring).
    rewrite !sum_add, !sum_scal_l. ring.
  - intros x s e d.
    rewrite (sum_ext n (fun i => move x s e i * apply n Q d i)%Qc (fun i => x i * apply n Q d i + s * (e i * apply n Q d i))%Qc) by (intros; unfold move; ring).
    rewrite (sum_ext n (fun i => d i * apply n Q (move x s e) i)%Qc (fun i => d i * apply n Q x i + s * (d i * apply n Q e i))%Qc) by (intros; rewrite apply_move; ring).
    rewrite !sum_add, !sum_scal_l. ring.
  - intro d. apply qc_mul_nonneg; [apply Qclt_le_weak; reflexivity|].
    destruct (Qclt_le_dec (sum n (fun i => d i * apply n Q d i)%Qc) 0%Qc) as [K|K]; [|exact K]. exfalso.
    assert (NA : ~ agree n d (fun _ => 0%Qc)).
    { intro A. rewrite sum_zero in K; [discriminate K|]. intros i Hi. rewrite (A i Hi). ring. }
    apply NA. intros i Hi. destruct (Qc_eq_dec (d i) 0%Qc) as [E|E]; [exact E|]. exfalso.
    assert (P : (0 < sum n (fun i => d i * apply n Q d i))%Qc) by (apply PD; exists i; auto). qc_lra.
  - intros d Hd x. assert (A : agree n d (fun _ => 0%Qc)).
    { apply Z. apply Qcmult_integral in Hd. destruct Hd as [Hd|Hd]; [exfalso; exact (H2 Hd)|exact Hd]. }
    assert (AP : forall i, apply n Q d i = 0%Qc) by (intro i; apply sum_zero; intros j Hj; rewrite (A j Hj); ring).
    rewrite (sum_zero n (fun i => x i * apply n Q d i)%Qc) by (intros; rewrite AP; ring).
    rewrite (sum_zero n (fun i => d i * apply n Q x i)%Qc) by (intros i Hi; rewrite (A i Hi); ring).
    rewrite (sum_zero n (fun i => c i * d i)%Qc) by (intros i Hi; rewrite (A i Hi); ring). ring.
Qed.
Theorem qp_attained : forall nv ne ni q, well_sized nv ne ni q -> pos_def nv (at_ (qQ q)) -> (exists x, feasible q x) ->
  exists x, least (feasible q) (qp_value q) x.
Proof.
  intros nv ne ni q W PD [x Fx]. assert (C : vsize (qc q) = nv) by apply W. rewrite <- C in PD.
  destruct (minimum_exists (vsize (qc q)) (qp_fns q) (qp_value q) (qp_quadratic q PD) (qp_fns_affine q)) as [y [Ny My]].
  { exists x. apply (qp_fns_ok _ _ _ _ _ W). exact Fx. }
  exists y. split; [apply (qp_fns_ok _ _ _ _ _ W); exact Ny|]. intros z Fz. apply My. apply (qp_fns_ok _ _ _ _ _ W). exact Fz.
Qed.
