(** Base.v -- exact rational scalars, finite sums, extended values, undefined
    behaviour as [None], C-style counted loops.  No copra code here. *)
From Coq Require Export QArith Qcanon Lqa List Lia Arith ZArith Bool.
Export ListNotations.
Global Open Scope nat_scope.

(** * Scalars: canonical rationals (every finite double is one) *)

Lemma qc_eqQ (x y : Qc) : x = y -> (x == y)%Q.
Proof. intros ->; reflexivity. Qed.

(** linear arithmetic on [Qc] *)
Ltac qc_lra :=
  intros;
  repeat match goal with H : @eq Qc _ _ |- _ => apply qc_eqQ in H end;
  try apply Qc_is_canon;
  unfold Qcle, Qclt, Qcminus, Qcopp, Qcplus, Qcmult in *; cbn [this Q2Qc] in *;
  repeat rewrite Qred_correct in *; lra.

Lemma q_sq_nonneg (q : Q) : (0 <= q * q)%Q.
Proof. nra. Qed.
Lemma q_mul_nonneg (p q : Q) : (0 <= p -> 0 <= q -> 0 <= p * q)%Q.
Proof. intros; nra. Qed.
Lemma q_mul_pos (p q : Q) : (0 < p -> 0 < q -> 0 < p * q)%Q.
Proof. intros; nra. Qed.

Lemma qc_mul_nonneg (x y : Qc) : (0 <= x -> 0 <= y -> 0 <= x * y)%Qc.
Proof.
  unfold Qcle, Qcmult; cbn [this Q2Qc]. rewrite !Qred_correct. apply q_mul_nonneg.
Qed.

Lemma qc_sq_nonneg (x : Qc) : (0 <= x * x)%Qc.
Proof.
  unfold Qcle, Qcmult; cbn [this Q2Qc]. rewrite !Qred_correct. apply q_sq_nonneg.
Qed.

Lemma qc_mul_pos (x y : Qc) : (0 < x -> 0 < y -> 0 < x * y)%Qc.
Proof.
  unfold Qclt, Qcmult; cbn [this Q2Qc]. rewrite !Qred_correct. apply q_mul_pos.
Qed.

Lemma qc_sq_pos (x : Qc) : x <> 0%Qc -> (0 < x * x)%Qc.
Proof.
  intro H. destruct (Qclt_le_dec x 0) as [L|L].
  - assert (E : (x * x = (- x) * (- x))%Qc) by ring. rewrite E.
    assert (P : (0 < - x)%Qc) by qc_lra. apply qc_mul_pos; exact P.
  - destruct (Qcle_lt_or_eq _ _ L) as [L'|L'].
    + apply qc_mul_pos; exact L'.
    + congruence.
Qed.

(** the literal 1e-6 *)
Definition q1em6 : Qc := Q2Qc (1 # 1000000).
(** [std::numeric_limits<double>::max()] = (2^53 - 1) * 2^971 *)
Definition DBL_MAX : Qc := Q2Qc (inject_Z ((2 ^ 53 - 1) * 2 ^ 971)).

Lemma q1em6_pos : (0 < q1em6)%Qc.
Proof. unfold q1em6; qc_lra. Qed.

(** * Finite sums [sum n f = f 0 + ... + f (n-1)] *)

Fixpoint sum (n : nat) (f : nat -> Qc) : Qc :=
  match n with
  | O => 0%Qc
  | S m => (sum m f + f m)%Qc
  end.

Lemma sum_ext n f g : (forall i, i < n -> f i = g i) -> sum n f = sum n g.
Proof.
  induction n as [|n IH]; intro H; cbn [sum]; [reflexivity|].
  rewrite IH by (intros; apply H; lia). rewrite H by lia. reflexivity.
Qed.

Lemma sum_0 n : sum n (fun _ => 0%Qc) = 0%Qc.
Proof. induction n as [|n IH]; cbn [sum]; [reflexivity|]. rewrite IH. ring. Qed.

Lemma sum_zero n f : (forall i, i < n -> f i = 0%Qc) -> sum n f = 0%Qc.
Proof. intro H. rewrite (sum_ext n f (fun _ => 0%Qc) H). apply sum_0. Qed.

Lemma sum_add n f g : sum n (fun i => f i + g i)%Qc = (sum n f + sum n g)%Qc.
Proof. induction n as [|n IH]; cbn [sum]; [ring|]. rewrite IH. ring. Qed.

Lemma sum_sub n f g : sum n (fun i => f i - g i)%Qc = (sum n f - sum n g)%Qc.
Proof. induction n as [|n IH]; cbn [sum]; [ring|]. rewrite IH. ring. Qed.

Lemma sum_opp n f : sum n (fun i => - f i)%Qc = (- sum n f)%Qc.
Proof. induction n as [|n IH]; cbn [sum]; [ring|]. rewrite IH. ring. Qed.

Lemma sum_scal_l n c f : sum n (fun i => c * f i)%Qc = (c * sum n f)%Qc.
Proof. induction n as [|n IH]; cbn [sum]; [ring|]. rewrite IH. ring. Qed.

Lemma sum_scal_r n c f : sum n (fun i => f i * c)%Qc = (sum n f * c)%Qc.
Proof. induction n as [|n IH]; cbn [sum]; [ring|]. rewrite IH. ring. Qed.

Lemma sum_swap n m f :
  sum n (fun i => sum m (fun j => f i j)) = sum m (fun j => sum n (fun i => f i j)).
Proof.
  induction n as [|n IH]; cbn [sum].
  - symmetry. apply sum_0.
  - rewrite IH. rewrite sum_add. reflexivity.
Qed.

Lemma sum_plus a b f : sum (a + b) f = (sum a f + sum b (fun i => f (a + i)%nat))%Qc.
Proof.
  induction b as [|b IH].
  - rewrite Nat.add_0_r. cbn [sum]. ring.
  - rewrite Nat.add_succ_r. cbn [sum]. rewrite IH. ring.
Qed.

(** sum over a stacked index [l*m + j] *)
Lemma sum_blocks n m f : sum (n * m) f = sum n (fun l => sum m (fun j => f (l * m + j))).
Proof.
  induction n as [|n IH]; cbn [sum Nat.mul]; [reflexivity|].
  rewrite Nat.add_comm, sum_plus, IH. reflexivity.
Qed.

Lemma sum_delta n k f : k < n ->
  sum n (fun i => if Nat.eqb i k then f i else 0%Qc) = f k.
Proof.
  induction n as [|n IH]; intro H; [lia|]. cbn [sum].
  destruct (Nat.eqb_spec n k) as [E|E].
  - subst. rewrite sum_zero; [ring|].
    intros i Hi. destruct (Nat.eqb_spec i k); [lia|reflexivity].
  - rewrite IH by lia. ring.
Qed.

Lemma sum_nonneg n f : (forall i, i < n -> (0 <= f i)%Qc) -> (0 <= sum n f)%Qc.
Proof.
  induction n as [|n IH]; intro H; cbn [sum]; [apply Qcle_refl|].
  assert (H1 : (0 <= sum n f)%Qc) by (apply IH; intros; apply H; lia).
  assert (H2 : (0 <= f n)%Qc) by (apply H; lia).
  qc_lra.
Qed.

Lemma sum_le n f g : (forall i, i < n -> (f i <= g i)%Qc) -> (sum n f <= sum n g)%Qc.
Proof.
  induction n as [|n IH]; intro H; cbn [sum]; [apply Qcle_refl|].
  assert (H1 : (sum n f <= sum n g)%Qc) by (apply IH; intros; apply H; lia).
  assert (H2 : (f n <= g n)%Qc) by (apply H; lia).
  qc_lra.
Qed.

Lemma sum_pos n f k : (forall i, i < n -> (0 <= f i)%Qc) -> k < n -> (0 < f k)%Qc ->
  (0 < sum n f)%Qc.
Proof.
  induction n as [|n IH]; intros H Hk Hp; [lia|]. cbn [sum].
  assert (H2 : (0 <= f n)%Qc) by (apply H; lia).
  assert (H1 : (0 <= sum n f)%Qc) by (apply sum_nonneg; intros; apply H; lia).
  destruct (Nat.eq_dec k n) as [->|E].
  - qc_lra.
  - assert (H3 : (0 < sum n f)%Qc) by (apply IH; [intros; apply H; lia|lia|exact Hp]).
    qc_lra.
Qed.

(** * Index arithmetic for stacked vectors *)

Lemma blk_lt n m k i : k < m -> i < n -> k * n + i < m * n.
Proof. nia. Qed.

Lemma blk_in n k m i : i < n -> m * n <= k * n + i -> k * n + i < m * n + n -> k = m.
Proof. nia. Qed.

Lemma blk_inj n k l i j : i < n -> j < n -> k * n + i = l * n + j -> k = l /\ i = j.
Proof.
  intros Hi Hj E. assert (k = l) by nia. subst. split; [reflexivity|]. lia.
Qed.

Lemma blk_div n N r : 0 < n -> r < N * n -> exists k i, k < N /\ i < n /\ r = k * n + i.
Proof.
  intros Hn Hr. exists (r / n), (r mod n).
  assert (r = n * (r / n) + r mod n) by (apply Nat.div_mod; lia).
  assert (r mod n < n) by (apply Nat.mod_upper_bound; lia).
  repeat split; [|assumption|lia].
  apply Nat.div_lt_upper_bound; lia.
Qed.

Lemma blk_quot m l j : j < m -> (l * m + j) / m = l.
Proof. intro H. rewrite Nat.div_add_l by lia. rewrite Nat.div_small by lia. lia. Qed.
Lemma blk_rem m l j : j < m -> (l * m + j) mod m = j.
Proof. intro H. rewrite Nat.add_comm, Nat.mod_add by lia. apply Nat.mod_small; lia. Qed.

Lemma blk_div' n N r : r < N * n -> exists k i, k < N /\ i < n /\ r = k * n + i.
Proof. intro H. apply blk_div; [destruct n; lia|exact H]. Qed.

(** * Extended values (right-hand sides and bounds may be infinite) *)

Inductive ext : Type := NInf | Fin (q : Qc) | PInf.

(** [e - q] *)
Definition ext_sub (e : ext) (q : Qc) : ext :=
  match e with NInf => NInf | Fin x => Fin (x - q)%Qc | PInf => PInf end.
(** [- e] *)
Definition ext_opp (e : ext) : ext :=
  match e with NInf => PInf | Fin x => Fin (- x)%Qc | PInf => NInf end.

(** [q <= e], [e <= q], [q = e] *)
Definition q_le_ext (q : Qc) (e : ext) : Prop :=
  match e with NInf => False | Fin x => (q <= x)%Qc | PInf => True end.
Definition ext_le_q (e : ext) (q : Qc) : Prop :=
  match e with NInf => True | Fin x => (x <= q)%Qc | PInf => False end.
Definition q_eq_ext (q : Qc) (e : ext) : Prop := e = Fin q.

Definition is_pinf (e : ext) : bool := match e with PInf => true | _ => false end.
Definition is_ninf (e : ext) : bool := match e with NInf => true | _ => false end.

Lemma q_le_ext_sub a x e : q_le_ext a (ext_sub e x) <-> q_le_ext (a + x)%Qc e.
Proof. destruct e as [|q|]; cbn; [tauto| |tauto]. split; qc_lra. Qed.

Lemma q_eq_ext_sub a x e : q_eq_ext a (ext_sub e x) <-> q_eq_ext (a + x)%Qc e.
Proof.
  unfold q_eq_ext. destruct e as [|q|]; cbn; [split; discriminate| |split; discriminate].
  split; intro H; injection H as H; f_equal; qc_lra.
Qed.

Lemma ext_sub_sub e a b : ext_sub (ext_sub e a) b = ext_sub e (a + b)%Qc.
Proof. destruct e as [|q|]; cbn; try reflexivity. f_equal. ring. Qed.

Lemma q_le_ext_opp a e : q_le_ext (- a)%Qc (ext_opp e) <-> ext_le_q e a.
Proof. destruct e as [|q|]; cbn; try tauto. split; qc_lra. Qed.

(** * Undefined behaviour *)

Definition obind {A B} (o : option A) (f : A -> option B) : option B :=
  match o with None => None | Some a => f a end.
Notation "x <- e ;; f" := (obind e (fun x => f))
  (at level 61, e at next level, right associativity).
Notation "' p <- e ;; f" := (obind e (fun p => f))
  (at level 61, p pattern, e at next level, right associativity).
(** [guard b ;;; f]: undefined behaviour unless [b] *)
Notation "'require' b ;; f" := (if b then f else None) (at level 61, f at level 61).

(** [int] range: values stored in an [int] must not exceed 2^31 - 1 *)
Definition INT_MAX : Z := 2147483647%Z.
Definition fits_int (n : nat) : bool := (Z.of_nat n <=? INT_MAX)%Z.

(** * Exceptions: the state of the object at the throw is kept *)

Inductive exn := DomainError | RuntimeError.

Inductive outcome (S : Type) : Type :=
| Ok (s : S)
| Throw (e : exn) (s : S)
| UB.
Arguments Ok {S} s.
Arguments Throw {S} e s.
Arguments UB {S}.

Definition out_bind {S} (o : outcome S) (f : S -> outcome S) : outcome S :=
  match o with Ok s => f s | Throw e s => Throw e s | UB => UB end.
Definition of_opt {S} (o : option S) : outcome S :=
  match o with Some s => Ok s | None => UB end.

(** * Counted loops: [for (i = a; i < b; ++i) body] *)

Fixpoint floop {S} (n i : nat) (body : nat -> S -> option S) (s : S) : option S :=
  match n with
  | O => Some s
  | Datatypes.S m => s' <- body i s ;; floop m (Datatypes.S i) body s'
  end.
Definition for_ {S} (a b : nat) (body : nat -> S -> option S) (s : S) : option S :=
  floop (b - a) a body s.

Lemma floop_inv {S} (P : nat -> S -> Prop) n : forall a body s,
  P a s ->
  (forall i s, a <= i < a + n -> P i s -> exists s', body i s = Some s' /\ P (1 + i) s') ->
  exists s', floop n a body s = Some s' /\ P (a + n) s'.
Proof.
  induction n as [|n IH]; intros a body s H0 Hs.
  - exists s. rewrite Nat.add_0_r. split; [reflexivity|exact H0].
  - destruct (Hs a s ltac:(lia) H0) as [s1 [E1 H1]].
    cbn [floop]. rewrite E1. cbn [obind].
    destruct (IH (1 + a) body s1 H1) as [s2 [E2 H2]].
    + intros i s' Hi. apply Hs. lia.
    + exists s2. split; [exact E2|]. replace (a + Datatypes.S n) with (1 + a + n) by lia. exact H2.
Qed.

Lemma for_inv {S} (P : nat -> S -> Prop) a b body s :
  a <= b -> P a s ->
  (forall i s, a <= i < b -> P i s -> exists s', body i s = Some s' /\ P (1 + i) s') ->
  exists s', for_ a b body s = Some s' /\ P b s'.
Proof.
  intros Hab H0 Hs. unfold for_.
  destruct (floop_inv P (b - a) a body s H0) as [s' [E H]].
  - intros i s1 Hi. apply Hs. lia.
  - exists s'. split; [exact E|]. replace b with (a + (b - a)) by lia. exact H.
Qed.

Lemma for_nil {S} a b body (s : S) : b <= a -> for_ a b body s = Some s.
Proof. intro H. unfold for_. replace (b - a) with 0 by lia. reflexivity. Qed.

Ltac bdestruct_all :=
  repeat match goal with
  | |- context [Nat.eqb ?a ?b] => destruct (Nat.eqb_spec a b)
  | |- context [Nat.leb ?a ?b] => destruct (Nat.leb_spec a b)
  | |- context [Nat.ltb ?a ?b] => destruct (Nat.ltb_spec a b)
  end.
