(** Eigen.v -- the Eigen operations used by copra, on run-time sized dense
    matrices and vectors.  [None] is undefined behaviour: a size precondition
    checked by eigen_assert in debug builds and by nothing in release builds.
    Entries outside the stated size are meaningless and never compared. *)
From Verif Require Import Base.

(** Eigen::MatrixXd *)
Record mx := Mx { rows : nat; cols : nat; at_ : nat -> nat -> Qc }.
(** Eigen::VectorXd; [T] is [Qc], or [ext] where infinities are allowed *)
Record vec (T : Type) := Vec { vsize : nat; vget : nat -> T }.
Arguments Vec {T} _ _.
Arguments vsize {T} _.
Arguments vget {T} _ _.

(** equality of values: same size, same entries *)
Definition meq (a b : mx) : Prop :=
  rows a = rows b /\ cols a = cols b /\
  forall i j, i < rows a -> j < cols a -> at_ a i j = at_ b i j.
Definition veq {T} (a b : vec T) : Prop :=
  vsize a = vsize b /\ forall i, i < vsize a -> vget a i = vget b i.

Lemma meq_refl a : meq a a.
Proof. repeat split. Qed.
Lemma meq_sym a b : meq a b -> meq b a.
Proof. intros [H1 [H2 H3]]. repeat split; try congruence. intros. symmetry. apply H3; congruence. Qed.
Lemma meq_trans a b c : meq a b -> meq b c -> meq a c.
Proof.
  intros [H1 [H2 H3]] [H4 [H5 H6]]. repeat split; try congruence.
  intros. rewrite H3 by assumption. apply H6; congruence.
Qed.
Lemma veq_refl {T} (a : vec T) : veq a a.
Proof. split; auto. Qed.
Lemma veq_sym {T} (a b : vec T) : veq a b -> veq b a.
Proof. intros [H1 H2]. split; [congruence|]. intros. symmetry. apply H2; congruence. Qed.
Lemma veq_trans {T} (a b c : vec T) : veq a b -> veq b c -> veq a c.
Proof.
  intros [H1 H2] [H3 H4]. split; [congruence|].
  intros. rewrite H2 by assumption. apply H4; congruence.
Qed.

(** default constructed matrix / vector *)
Definition mempty : mx := Mx 0 0 (fun _ _ => 0%Qc).
Definition vempty {T} (d : T) : vec T := Vec 0 (fun _ => d).

(** MatrixXd::Zero(r, c), m.setZero() after resize(r, c) *)
Definition mzero (r c : nat) : mx := Mx r c (fun _ _ => 0%Qc).
(** m.setZero() *)
Definition msetZero (m : mx) : mx := mzero (rows m) (cols m).
(** MatrixXd::Identity(r, c), m.setIdentity() *)
Definition mident (r c : nat) : mx := Mx r c (fun i j => if Nat.eqb i j then 1%Qc else 0%Qc).
(** VectorXd::Constant(n, x), v.setConstant(n, x) *)
Definition vconst {T} (n : nat) (x : T) : vec T := Vec n (fun _ => x).
(** s * m *)
Definition mscal (s : Qc) (m : mx) : mx := Mx (rows m) (cols m) (fun i j => s * at_ m i j)%Qc.
(** m.transpose() *)
Definition mtrans (m : mx) : mx := Mx (cols m) (rows m) (fun i j => at_ m j i).

(** m.resize(r, c): keeps the entries when the size does not change, otherwise
    the entries are indeterminate ([junk]) *)
Definition mresize (junk : nat -> nat -> Qc) (m : mx) (r c : nat) : mx :=
  if Nat.eqb (rows m) r && Nat.eqb (cols m) c then m else Mx r c junk.
Definition vresize {T} (junk : nat -> T) (v : vec T) (n : nat) : vec T :=
  if Nat.eqb (vsize v) n then v else Vec n junk.
(** v.conservativeResize(n) *)
Definition vconsResize {T} (junk : nat -> T) (v : vec T) (n : nat) : vec T :=
  Vec n (fun i => if i <? vsize v then vget v i else junk i).

(** a * b *)
Definition mmul (a b : mx) : option mx :=
  require Nat.eqb (cols a) (rows b) ;;
  Some (Mx (rows a) (cols b) (fun i j => sum (cols a) (fun k => at_ a i k * at_ b k j)%Qc)).
(** m * v *)
Definition mvmul (m : mx) (v : vec Qc) : option (vec Qc) :=
  require Nat.eqb (cols m) (vsize v) ;;
  Some (Vec (rows m) (fun i => sum (cols m) (fun k => at_ m i k * vget v k)%Qc)).
(** a + b *)
Definition madd (a b : mx) : option mx :=
  require Nat.eqb (rows a) (rows b) && Nat.eqb (cols a) (cols b) ;;
  Some (Mx (rows a) (cols a) (fun i j => at_ a i j + at_ b i j)%Qc).
Definition vadd (a b : vec Qc) : option (vec Qc) :=
  require Nat.eqb (vsize a) (vsize b) ;;
  Some (Vec (vsize a) (fun i => vget a i + vget b i)%Qc).
(** a - b *)
Definition vsub (a b : vec Qc) : option (vec Qc) :=
  require Nat.eqb (vsize a) (vsize b) ;;
  Some (Vec (vsize a) (fun i => vget a i - vget b i)%Qc).
(** a - b with a possibly infinite left side *)
Definition vesub (a : vec ext) (b : vec Qc) : option (vec ext) :=
  require Nat.eqb (vsize a) (vsize b) ;;
  Some (Vec (vsize a) (fun i => ext_sub (vget a i) (vget b i))).
(** -v *)
Definition vopp (a : vec Qc) : vec Qc := Vec (vsize a) (fun i => (- vget a i)%Qc).
(** m * w.asDiagonal() *)
Definition mdiag (m : mx) (w : vec Qc) : option mx :=
  require Nat.eqb (cols m) (vsize w) ;;
  Some (Mx (rows m) (cols m) (fun i j => at_ m i j * vget w j)%Qc).
(** v.transpose() * w.asDiagonal(), as a (row) vector *)
Definition vdiag (v w : vec Qc) : option (vec Qc) :=
  require Nat.eqb (vsize v) (vsize w) ;;
  Some (Vec (vsize v) (fun i => vget v i * vget w i)%Qc).
(** v.transpose() * m, as a (row) vector *)
Definition vmmul (v : vec Qc) (m : mx) : option (vec Qc) :=
  require Nat.eqb (vsize v) (rows m) ;;
  Some (Vec (cols m) (fun j => sum (vsize v) (fun k => vget v k * at_ m k j)%Qc)).

(** m.block(r, c, nr, nc) as a value *)
Definition block (m : mx) (r c nr nc : nat) : option mx :=
  require (r + nr <=? rows m) && (c + nc <=? cols m) ;;
  Some (Mx nr nc (fun i j => at_ m (r + i) (c + j))).
(** m.bottomRows(n) *)
Definition bottomRows (m : mx) (n : nat) : option mx :=
  require n <=? rows m ;; block m (rows m - n) 0 n (cols m).
(** m.block(r, c, nr, nc) = e *)
Definition setBlock (m : mx) (r c nr nc : nat) (e : mx) : option mx :=
  require (r + nr <=? rows m) && (c + nc <=? cols m) ;;
  require Nat.eqb (rows e) nr && Nat.eqb (cols e) nc ;;
  Some (Mx (rows m) (cols m) (fun i j =>
    if (r <=? i) && (i <? r + nr) && (c <=? j) && (j <? c + nc)
    then at_ e (i - r) (j - c) else at_ m i j)).
(** m.block(r, c, nr, nc) += e *)
Definition addBlock (m : mx) (r c nr nc : nat) (e : mx) : option mx :=
  b <- block m r c nr nc ;; s <- madd b e ;; setBlock m r c nr nc s.
(** v.segment(s, n) as a value *)
Definition seg {T} (v : vec T) (s n : nat) : option (vec T) :=
  require s + n <=? vsize v ;; Some (Vec n (fun i => vget v (s + i))).
(** v.tail(n) *)
Definition tail {T} (v : vec T) (n : nat) : option (vec T) :=
  require n <=? vsize v ;; seg v (vsize v - n) n.
(** v.segment(s, n) = e *)
Definition setSeg {T} (v : vec T) (s n : nat) (e : vec T) : option (vec T) :=
  require s + n <=? vsize v ;;
  require Nat.eqb (vsize e) n ;;
  Some (Vec (vsize v) (fun i => if (s <=? i) && (i <? s + n) then vget e (i - s) else vget v i)).
(** v(i) = x, v(i) *)
Definition vset {T} (v : vec T) (i : nat) (x : T) : option (vec T) :=
  require i <? vsize v ;; Some (Vec (vsize v) (fun k => if Nat.eqb k i then x else vget v k)).
Definition vat {T} (v : vec T) (i : nat) : option T :=
  require i <? vsize v ;; Some (vget v i).
(** m.row(i) = n.row(j) *)
Definition setRow (m : mx) (i : nat) (n : mx) (j : nat) : option mx :=
  require (i <? rows m) && (j <? rows n) && Nat.eqb (cols m) (cols n) ;;
  Some (Mx (rows m) (cols m) (fun r c => if Nat.eqb r i then at_ n j c else at_ m r c)).
(** m.row(i) * v, a scalar *)
Definition rowDot (m : mx) (i : nat) (v : vec Qc) : option Qc :=
  require (i <? rows m) && Nat.eqb (cols m) (vsize v) ;;
  Some (sum (cols m) (fun k => at_ m i k * vget v k)%Qc).

(** ** Definedness lemmas *)

Ltac eqb_true :=
  repeat match goal with
  | |- context [Nat.eqb ?a ?b] => rewrite (proj2 (Nat.eqb_eq a b)) by (cbn in *; lia)
  | |- context [Nat.leb ?a ?b] => rewrite (proj2 (Nat.leb_le a b)) by (cbn in *; lia)
  | |- context [Nat.ltb ?a ?b] => rewrite (proj2 (Nat.ltb_lt a b)) by (cbn in *; lia)
  end.

Lemma mmul_ok a b : cols a = rows b ->
  mmul a b = Some (Mx (rows a) (cols b) (fun i j => sum (cols a) (fun k => at_ a i k * at_ b k j)%Qc)).
Proof. intro H. unfold mmul. rewrite H, Nat.eqb_refl. reflexivity. Qed.
Lemma mvmul_ok m v : cols m = vsize v ->
  mvmul m v = Some (Vec (rows m) (fun i => sum (cols m) (fun k => at_ m i k * vget v k)%Qc)).
Proof. intro H. unfold mvmul. rewrite H, Nat.eqb_refl. reflexivity. Qed.
Lemma madd_ok a b : rows a = rows b -> cols a = cols b ->
  madd a b = Some (Mx (rows a) (cols a) (fun i j => at_ a i j + at_ b i j)%Qc).
Proof. intros H1 H2. unfold madd. rewrite H1, H2, !Nat.eqb_refl. reflexivity. Qed.
Lemma vadd_ok a b : vsize a = vsize b ->
  vadd a b = Some (Vec (vsize a) (fun i => vget a i + vget b i)%Qc).
Proof. intro H. unfold vadd. rewrite H, Nat.eqb_refl. reflexivity. Qed.
Lemma vsub_ok a b : vsize a = vsize b ->
  vsub a b = Some (Vec (vsize a) (fun i => vget a i - vget b i)%Qc).
Proof. intro H. unfold vsub. rewrite H, Nat.eqb_refl. reflexivity. Qed.
Lemma vesub_ok a b : vsize a = vsize b ->
  vesub a b = Some (Vec (vsize a) (fun i => ext_sub (vget a i) (vget b i))).
Proof. intro H. unfold vesub. rewrite H, Nat.eqb_refl. reflexivity. Qed.
Lemma mdiag_ok m w : cols m = vsize w ->
  mdiag m w = Some (Mx (rows m) (cols m) (fun i j => at_ m i j * vget w j)%Qc).
Proof. intro H. unfold mdiag. rewrite H, Nat.eqb_refl. reflexivity. Qed.
Lemma vdiag_ok v w : vsize v = vsize w ->
  vdiag v w = Some (Vec (vsize v) (fun i => vget v i * vget w i)%Qc).
Proof. intro H. unfold vdiag. rewrite H, Nat.eqb_refl. reflexivity. Qed.
Lemma vmmul_ok v m : vsize v = rows m ->
  vmmul v m = Some (Vec (cols m) (fun j => sum (vsize v) (fun k => vget v k * at_ m k j)%Qc)).
Proof. intro H. unfold vmmul. rewrite H, Nat.eqb_refl. reflexivity. Qed.
Lemma block_ok m r c nr nc : r + nr <= rows m -> c + nc <= cols m ->
  block m r c nr nc = Some (Mx nr nc (fun i j => at_ m (r + i) (c + j))).
Proof. intros H1 H2. unfold block. eqb_true. reflexivity. Qed.
Lemma bottomRows_ok m n : n <= rows m ->
  bottomRows m n = Some (Mx n (cols m) (fun i j => at_ m (rows m - n + i) j)).
Proof. intros H. unfold bottomRows, block. eqb_true. reflexivity. Qed.
Lemma setBlock_ok m r c nr nc e : r + nr <= rows m -> c + nc <= cols m ->
  rows e = nr -> cols e = nc ->
  setBlock m r c nr nc e = Some (Mx (rows m) (cols m) (fun i j =>
    if (r <=? i) && (i <? r + nr) && (c <=? j) && (j <? c + nc)
    then at_ e (i - r) (j - c) else at_ m i j)).
Proof. intros H1 H2 H3 H4. unfold setBlock. eqb_true. reflexivity. Qed.
Lemma addBlock_ok m r c nr nc e : r + nr <= rows m -> c + nc <= cols m ->
  rows e = nr -> cols e = nc ->
  addBlock m r c nr nc e = Some (Mx (rows m) (cols m) (fun i j =>
    if (r <=? i) && (i <? r + nr) && (c <=? j) && (j <? c + nc)
    then (at_ m (r + (i - r)) (c + (j - c)) + at_ e (i - r) (j - c))%Qc else at_ m i j)).
Proof.
  intros H1 H2 H3 H4. unfold addBlock. rewrite block_ok by assumption. cbn [obind].
  rewrite madd_ok by (cbn; congruence). cbn [obind rows cols at_].
  rewrite setBlock_ok by (cbn; congruence). reflexivity.
Qed.
Lemma seg_ok {T} (v : vec T) s n : s + n <= vsize v -> seg v s n = Some (Vec n (fun i => vget v (s + i))).
Proof. intro H. unfold seg. eqb_true. reflexivity. Qed.
Lemma tail_ok {T} (v : vec T) n : n <= vsize v ->
  tail v n = Some (Vec n (fun i => vget v (vsize v - n + i))).
Proof. intro H. unfold tail, seg. eqb_true. reflexivity. Qed.
Lemma setSeg_ok {T} (v : vec T) s n e : s + n <= vsize v -> vsize e = n ->
  setSeg v s n e = Some (Vec (vsize v) (fun i => if (s <=? i) && (i <? s + n) then vget e (i - s) else vget v i)).
Proof. intros H1 H2. unfold setSeg. eqb_true. reflexivity. Qed.
Lemma vset_ok {T} (v : vec T) i x : i < vsize v ->
  vset v i x = Some (Vec (vsize v) (fun k => if Nat.eqb k i then x else vget v k)).
Proof. intro H. unfold vset. eqb_true. reflexivity. Qed.
Lemma vat_ok {T} (v : vec T) i : i < vsize v -> vat v i = Some (vget v i).
Proof. intro H. unfold vat. eqb_true. reflexivity. Qed.
Lemma setRow_ok m i n j : i < rows m -> j < rows n -> cols m = cols n ->
  setRow m i n j = Some (Mx (rows m) (cols m) (fun r c => if Nat.eqb r i then at_ n j c else at_ m r c)).
Proof. intros H1 H2 H3. unfold setRow. eqb_true. reflexivity. Qed.
Lemma rowDot_ok m i v : i < rows m -> cols m = vsize v ->
  rowDot m i v = Some (sum (cols m) (fun k => at_ m i k * vget v k)%Qc).
Proof. intros H1 H2. unfold rowDot. eqb_true. reflexivity. Qed.

Lemma mresize_rows j m r c : rows (mresize j m r c) = r.
Proof.
  unfold mresize. destruct (Nat.eqb_spec (rows m) r); cbn; [|reflexivity].
  destruct (Nat.eqb_spec (cols m) c); cbn; congruence.
Qed.
Lemma mresize_cols j m r c : cols (mresize j m r c) = c.
Proof.
  unfold mresize. destruct (Nat.eqb_spec (rows m) r); cbn; [|reflexivity].
  destruct (Nat.eqb_spec (cols m) c); cbn; congruence.
Qed.
Lemma vresize_size {T} j (v : vec T) n : vsize (vresize j v n) = n.
Proof. unfold vresize. destruct (Nat.eqb_spec (vsize v) n); cbn; congruence. Qed.
Lemma mresize_id j m r c : rows m = r -> cols m = c -> mresize j m r c = m.
Proof. intros <- <-. unfold mresize. rewrite !Nat.eqb_refl. reflexivity. Qed.
Lemma vresize_id {T} j (v : vec T) n : vsize v = n -> vresize j v n = v.
Proof. intros <-. unfold vresize. rewrite Nat.eqb_refl. reflexivity. Qed.
