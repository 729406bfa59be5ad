(** Properties_AutoSpan.v -- C05, C06. *)
From Verif Require Import Base Eigen Spec AutoSpan SpecApi AutoSpanProofs.

(** ** C05: spanMatrix.  Case by case for every matrix and every (non-negative) [nd], [ac]. *)
Theorem C05_spanMatrix : forall mat nd ac,
  let r := rows mat in let c := cols mat in
  let res := spanMatrix mat (Z.of_nat nd) (Z.of_nat ac) in
  (nd = r -> res = Ok mat) /\
  (nd <> r -> r = 0 -> res = UB) /\
  (nd <> r -> r <> 0 -> ~ Nat.divide r nd -> res = Throw DomainError mat) /\
  (nd <> r -> r <> 0 -> Nat.divide r nd ->
     exists m, res = Ok m /\ rows m = nd /\ cols m = c * (nd / r + ac) /\
       forall k l i j, k < nd / r -> l < nd / r + ac -> i < r -> j < c ->
         at_ m (k * r + i) (l * c + j) = if Nat.eqb k l then at_ mat i j else 0%Qc).
Proof.
  intros mat nd ac r c res. unfold res, r, c. split; [|split; [|split]].
  - intros ->. apply spanMatrix_same.
  - intros H1 H2. apply spanMatrix_empty; [exact H2|lia].
  - intros H1 H2 H3. apply spanMatrix_throw; [exact H2|lia|].
    intros [q Hq]. apply H3. exists (Z.to_nat q). nia.
  - intros H1 H2 [q ->]. rewrite Nat.div_mul by exact H2.
    apply spanMatrix_ok; [exact H2|]. intros ->. lia.
Qed.

(** outside that range: a negative multiple or a negative number of added columns is undefined *)
Theorem C05_spanMatrix_negative : forall mat nd ac,
  rows mat <> 0 -> (Z.of_nat (rows mat) | nd)%Z -> nd <> Z.of_nat (rows mat) ->
  (nd < 0 \/ (ac < 0 /\ cols mat <> 0%nat))%Z -> spanMatrix mat nd ac = UB.
Proof.
  intros mat nd ac Hr [q Hq] Hn Hc. unfold spanMatrix.
  destruct (Z.eqb_spec nd (Z.of_nat (rows mat))) as [E|_]; [congruence|].
  destruct (Nat.eqb_spec (rows mat) 0) as [E|_]; [congruence|].
  rewrite Hq. rewrite Z.quot_mul by lia. rewrite Z.eqb_refl. cbn [negb].
  destruct (Z.ltb_spec (q * Z.of_nat (rows mat)) 0) as [L|L]; [reflexivity|].
  destruct (Z.ltb_spec (Z.of_nat (cols mat) * (q + ac)) 0) as [L'|L']; [reflexivity|].
  cbn [orb]. destruct Hc as [Hc|[Hc Hcols]]; [lia|].
  assert (Hq0 : (0 <= q)%Z) by nia. assert (Hp : (0 <= q + ac)%Z) by nia.
  assert (Hpos : (0 < q)%Z) by lia.
  (* the last block does not fit *)
  set (N := Z.to_nat q).
  assert (HN : exists p, N = S p) by (exists (N - 1); unfold N; lia). destruct HN as [p Hp'].
  assert (G : forall t s m, s + t = S p -> s <= p -> rows m = Z.to_nat (q * Z.of_nat (rows mat)) ->
     cols m = Z.to_nat (Z.of_nat (cols mat) * (q + ac)) ->
     floop t s (fun i m => setBlock m (i * rows mat) (i * cols mat) (rows mat) (cols mat) mat) m = None).
  { induction t as [|t IH]; intros s m E1 E2 R C; [lia|]. cbn [floop].
    unfold setBlock at 1.
    destruct ((s * rows mat + rows mat <=? rows m) && (s * cols mat + cols mat <=? cols m)) eqn:G; [|reflexivity].
    rewrite !Nat.eqb_refl. cbn [andb obind].
    destruct (Nat.eq_dec s p) as [->|Es].
    - apply andb_true_iff in G. destruct G as [_ G]. apply Nat.leb_le in G. rewrite C in G. exfalso.
      assert (Z.of_nat (p * cols mat + cols mat) <= Z.of_nat (cols mat) * (q + ac))%Z by lia.
      assert (q = Z.of_nat (S p)) by lia. nia.
    - apply IH; cbn; try assumption; lia. }
  unfold for_. rewrite Hp', Nat.sub_0_r. rewrite G; [reflexivity|lia|lia|reflexivity|reflexivity].
Qed.

Example C05_example :
  match spanMatrix (mlit [[1; 2]]%Z) 3 1 with
  | Ok m => mdump m = map (map qz) [[1;2;0;0;0;0;0;0];[0;0;1;2;0;0;0;0];[0;0;0;0;1;2;0;0]]%Z
  | _ => False end /\
  spanMatrix (mlit [[1]; [2]]%Z) 3 0 = Throw DomainError (mlit [[1]; [2]]%Z) /\
  spanMatrix mempty 3 0 = UB.
Proof. split; [vm_compute; reflexivity|]. split; reflexivity. Qed.
Print Assumptions C05_spanMatrix.
Print Assumptions C05_spanMatrix_negative.

(** any integer arguments: what is left unchanged, rejected, undefined before anything else *)
Lemma quot_multiple r nd : r <> 0 -> (Z.quot nd (Z.of_nat r) * Z.of_nat r = nd)%Z <-> (Z.of_nat r | nd)%Z.
Proof.
  intro Hr. split; [intro E; exists (Z.quot nd (Z.of_nat r)); symmetry; exact E|].
  intros [q ->]. rewrite Z.quot_mul by lia. reflexivity.
Qed.
Theorem C05_spanMatrix_any : forall mat (nd ac : Z),
  (nd = Z.of_nat (rows mat) -> spanMatrix mat nd ac = Ok mat) /\
  (nd <> Z.of_nat (rows mat) -> rows mat = 0 -> spanMatrix mat nd ac = UB) /\
  (rows mat <> 0 -> ~ (Z.of_nat (rows mat) | nd)%Z -> spanMatrix mat nd ac = Throw DomainError mat).
Proof.
  intros mat nd ac. unfold spanMatrix. split; [|split].
  - intros ->. rewrite Z.eqb_refl. reflexivity.
  - intros H E. rewrite (proj2 (Z.eqb_neq _ _) H), E. reflexivity.
  - intros Hr D. destruct (Z.eqb_spec nd (Z.of_nat (rows mat))) as [->|_]; [exfalso; apply D; apply Z.divide_refl|].
    rewrite (proj2 (Nat.eqb_neq _ _) Hr). destruct (Z.eqb_spec (Z.quot nd (Z.of_nat (rows mat)) * Z.of_nat (rows mat)) nd) as [E|E]; [|reflexivity].
    exfalso. apply D. apply quot_multiple; assumption.
Qed.
Print Assumptions C05_spanMatrix_any.

(** ** C06: spanVector *)
Theorem C06_spanVector : forall (T : Type) junk (v : vec T) nd,
  let r := vsize v in
  let res := spanVector junk v (Z.of_nat nd) in
  (nd = r -> res = Ok v) /\
  (nd <> r -> r = 0 -> res = UB) /\
  (nd <> r -> r <> 0 -> ~ Nat.divide r nd -> res = Throw DomainError v) /\
  (nd <> r -> r <> 0 -> Nat.divide r nd ->
     exists w, res = Ok w /\ vsize w = nd /\ forall i, i < nd -> vget w i = vget v (i mod r)).
Proof.
  intros T junk v nd r res. unfold res, r. split; [|split; [|split]].
  - intros ->. apply spanVector_same.
  - intros H1 H2. apply spanVector_empty; [exact H2|lia].
  - intros H1 H2 H3. apply spanVector_throw; [exact H2|lia|].
    intros [q Hq]. apply H3. exists (Z.to_nat q). nia.
  - intros H1 H2 [q ->].
    destruct (spanVector_ok junk v q H2) as [w [E [S HS]]]; [intros ->; lia|].
    exists w. split; [exact E|]. split; [exact S|].
    intros i Hi. destruct (blk_div' _ _ _ Hi) as [k [j [Hk [Hj ->]]]].
    rewrite blk_rem by exact Hj. apply HS; assumption.
Qed.

Theorem C06_spanVector_negative : forall (T : Type) junk (v : vec T) nd,
  vsize v <> 0 -> (Z.of_nat (vsize v) | nd)%Z -> (nd < 0)%Z -> spanVector junk v nd = UB.
Proof.
  intros T junk v nd Hr [q Hq] Hn. unfold spanVector.
  destruct (Z.eqb_spec nd (Z.of_nat (vsize v))) as [E|_]; [lia|].
  destruct (Nat.eqb_spec (vsize v) 0) as [E|_]; [congruence|].
  rewrite Hq. rewrite Z.quot_mul by lia. rewrite Z.eqb_refl. cbn [negb].
  destruct (Z.ltb_spec (q * Z.of_nat (vsize v)) 0) as [L|L]; [reflexivity|lia].
Qed.

Example C06_example :
  match spanVector (fun _ => 0%Qc) (vlit [4; 5]%Z) 6 with
  | Ok w => vdump w = map qz [4;5;4;5;4;5]%Z
  | _ => False end.
Proof. vm_compute. reflexivity. Qed.
Print Assumptions C06_spanVector.
Print Assumptions C06_spanVector_negative.

Theorem C06_spanVector_any : forall (T : Type) junk (v : vec T) (nd : Z),
  (nd = Z.of_nat (vsize v) -> spanVector junk v nd = Ok v) /\
  (nd <> Z.of_nat (vsize v) -> vsize v = 0 -> spanVector junk v nd = UB) /\
  (vsize v <> 0 -> ~ (Z.of_nat (vsize v) | nd)%Z -> spanVector junk v nd = Throw DomainError v).
Proof.
  intros T junk v nd. unfold spanVector. split; [|split].
  - intros ->. rewrite Z.eqb_refl. reflexivity.
  - intros H E. rewrite (proj2 (Z.eqb_neq _ _) H), E. reflexivity.
  - intros Hr D. destruct (Z.eqb_spec nd (Z.of_nat (vsize v))) as [->|_]; [exfalso; apply D; apply Z.divide_refl|].
    rewrite (proj2 (Nat.eqb_neq _ _) Hr). destruct (Z.eqb_spec (Z.quot nd (Z.of_nat (vsize v)) * Z.of_nat (vsize v)) nd) as [E|E]; [|reflexivity].
    exfalso. apply D. apply quot_multiple; assumption.
Qed.
Print Assumptions C06_spanVector_any.
