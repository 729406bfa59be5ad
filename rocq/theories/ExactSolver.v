(** ExactSolver.v -- exact solvers for the examples: an answer is checked with its KKT multipliers and a sum-of-squares
    decomposition of the cost matrix, and refused when the check fails. *)
From Verif Require Import Base Eigen Spec SpecApi Preview Checkers Controller SpecController SpecEndToEnd Convex Properties_Protocol.

Record cert := Cert {
  ku : list Qc;                   (* the answer *)
  kmu : list Qc; kla : list Qc;   (* multipliers of the equalities and of the inequalities *)
  knu : list Qc;                  (* multipliers of the bounds *)
  ksq : list (Qc * list Qc)       (* Q = sum d l l' *)
}.
Definition nthq (l : list Qc) (i : nat) : Qc := nth i l 0%Qc.
Fixpoint sos (s : list (Qc * list Qc)) (i j : nat) : Qc :=
  match s with [] => 0%Qc | (d, l) :: t => (d * (nthq l i * nthq l j) + sos t i j)%Qc end.
Definition tightb (e : ext) (x : Qc) : bool := match e with Fin y => qeqb x y | _ => false end.
Definition kkt_check (q : qp) (c : cert) : bool :=
  let k := vsize (qc q) in
  let u := nthq (ku c) in
  let mu := nthq (kmu c) in let la := nthq (kla c) in let nu := nthq (knu c) in
  Nat.eqb (cols (qAeq q)) k && Nat.eqb (cols (qAineq q)) k && Nat.eqb (vsize (qlb q)) k &&
  allb k (fun i => allb k (fun j => qeqb (at_ (qQ q) i j) (sos (ksq c) i j))) &&
  forallb (fun s => qleb 0%Qc (fst s)) (ksq c) &&
  rows_holdb false (rows (qAeq q)) (cols (qAeq q)) (at_ (qAeq q)) (vget (qbeq q)) u &&
  rows_holdb true (rows (qAineq q)) (cols (qAineq q)) (at_ (qAineq q)) (vget (qbineq q)) u &&
  within_boundsb (vsize (qlb q)) (vget (qlb q)) (vget (qub q)) u &&
  allb (rows (qAineq q)) (fun i => qeqb (la i) 0%Qc ||
     (qleb 0%Qc (la i) && tightb (vget (qbineq q) i) (apply (cols (qAineq q)) (at_ (qAineq q)) u i))) &&
  allb k (fun j => qeqb (nu j) 0%Qc || (qleb 0%Qc (nu j) && tightb (vget (qub q) j) (u j))
                   || (qleb (nu j) 0%Qc && tightb (vget (qlb q) j) (u j))) &&
  allb k (fun j => qeqb (apply k (at_ (qQ q)) u j + vget (qc q) j
                         + sum (rows (qAeq q)) (fun i => mu i * at_ (qAeq q) i j)
                         + sum (rows (qAineq q)) (fun i => la i * at_ (qAineq q) i j) + nu j)%Qc 0%Qc).

(** the solver that knows the certificates [cs] *)
Fixpoint pick (q : qp) (cs : list cert) : option cert :=
  match cs with [] => None | c :: t => if kkt_check q c then Some c else pick q t end.
Definition env_certs (cs : list cert) : senv :=
  SEnv j0 (fun m => m) (fun k _ _ q =>
    if Nat.eqb k (vsize (qc q))
    then match pick q cs with Some c => (true, Vec k (nthq (ku c))) | None => (false, vconst k 0%Qc) end
    else (false, vconst k 0%Qc)) (qz 0) (qz 1) (qz 3) (qz 4).

Lemma tightb_ok e x : tightb e x = true -> e = Fin x.
Proof. destruct e; cbn; try discriminate. rewrite qeqb_ok. intros ->. reflexivity. Qed.
Lemma sos_quad k s v : (forall d l, In (d, l) s -> (0 <= d)%Qc) -> (0 <= sum k (fun i => v i * apply k (sos s) v i))%Qc.
Proof.
  induction s as [|[d l] t IH]; intro H; cbn [sos].
  - rewrite sum_zero; [apply Qcle_refl|]. intros i Hi. unfold apply. rewrite sum_zero; [ring|]. intros; ring.
  - assert (E : sum k (fun i => v i * apply k (fun a b => d * (nthq l a * nthq l b) + sos t a b) v i)%Qc
        = (d * (sum k (fun j => nthq l j * v j) * sum k (fun j => nthq l j * v j)) + sum k (fun i => v i * apply k (sos t) v i))%Qc).
    { set (z := sum k (fun j => nthq l j * v j)%Qc).
      transitivity (sum k (fun i => (d * z) * (nthq l i * v i) + v i * apply k (sos t) v i)%Qc).
      - apply sum_ext. intros i Hi. unfold apply.
        rewrite (sum_ext k _ (fun j => (d * nthq l i) * (nthq l j * v j) + sos t i j * v j)%Qc) by (intros; ring).
        rewrite sum_add, sum_scal_l. fold z. ring.
      - rewrite sum_add, sum_scal_l. fold z. ring. }
    rewrite E. assert (G : (0 <= d * (sum k (fun j => nthq l j * v j) * sum k (fun j => nthq l j * v j)))%Qc).
    { apply qc_mul_nonneg; [apply (H d l); left; reflexivity|apply qc_sq_nonneg]. }
    assert (G2 : (0 <= sum k (fun i => v i * apply k (sos t) v i))%Qc) by (apply IH; intros d' l' Hd; apply (H d' l'); right; exact Hd).
    qc_lra.
Qed.
Lemma sos_sym s i j : sos s i j = sos s j i.
Proof. induction s as [|[d l] t IH]; cbn; [reflexivity|]. rewrite IH. ring. Qed.

(** first-order bound for a convex cost *)
Lemma convex_bound k Q c u v : symmetric k Q -> (0 <= sum k (fun i => (v i - u i) * apply k Q (fun j => v j - u j) i))%Qc ->
  (sum k (fun j => (apply k Q u j + c j) * (v j - u j)) <= objective k Q c v - objective k Q c u)%Qc.
Proof.
  intros S P. unfold objective.
  set (z := sum k (fun i => (v i - u i) * apply k Q (fun j => v j - u j) i)%Qc) in *.
  assert (S1 : sum k (fun i => u i * apply k Q v i)%Qc = sum k (fun i => v i * apply k Q u i)%Qc).
  { unfold apply. transitivity (sum k (fun i => sum k (fun j => u i * (Q i j * v j)))%Qc).
    - apply sum_ext. intros. rewrite sum_scal_l. reflexivity.
    - rewrite sum_swap. apply sum_ext. intros i Hi. rewrite <- sum_scal_l. apply sum_ext. intros j Hj. rewrite (S j i) by assumption. ring. }
  assert (Z : z = (sum k (fun i => v i * apply k Q v i) - sum k (fun i => v i * apply k Q u i)
                   - sum k (fun i => v i * apply k Q u i) + sum k (fun i => u i * apply k Q u i))%Qc).
  { unfold z. rewrite <- S1 at 2. rewrite <- !sum_sub, <- sum_add. apply sum_ext. intros i Hi.
    assert (L : apply k Q (fun j => v j - u j)%Qc i = (apply k Q v i - apply k Q u i)%Qc) by (unfold apply; rewrite <- sum_sub; apply sum_ext; intros; ring).
    rewrite L. ring. }
  assert (E : sum k (fun j => (apply k Q u j + c j) * (v j - u j))%Qc
     = (sum k (fun i => v i * apply k Q u i) - sum k (fun i => u i * apply k Q u i) + (sum k (fun i => c i * v i) - sum k (fun i => c i * u i)))%Qc).
  { rewrite <- !sum_sub, <- sum_add. apply sum_ext. intros. ring. }
  rewrite E. set (a := sum k (fun i => v i * apply k Q v i)%Qc) in *. set (b := sum k (fun i => v i * apply k Q u i)%Qc) in *.
  set (g := sum k (fun i => u i * apply k Q u i)%Qc) in *.
  pose proof (half_split a). pose proof (half_split b). pose proof (half_split g). pose proof (half_split z).
  assert (X : (half * z = half * a - half * b - half * b + half * g)%Qc) by (rewrite Z; ring). qc_lra.
Qed.

Lemma kkt_optimal q c : kkt_check q c = true ->
  feasible q (nthq (ku c)) /\ forall V, feasible q V -> (qp_value q (nthq (ku c)) <= qp_value q V)%Qc.
Proof.
  unfold kkt_check. cbv zeta. intro H. repeat (apply andb_true_iff in H as [H ?]).
  rename H into C1, H9 into C2, H8 into C3, H7 into C4, H6 into C5, H5 into C6, H4 into C7, H3 into C8, H2 into C9, H1 into C10, H0 into C11.
  apply Nat.eqb_eq in C1, C2, C3. rewrite rows_holdb_ok in C6, C7. rewrite within_boundsb_ok in C8.
  split; [split; [|split]; assumption|]. intros V [F1 [F2 F3]].
  set (k := vsize (qc q)) in *. set (u := nthq (ku c)) in *.
  assert (Q0 : forall i j, i < k -> j < k -> at_ (qQ q) i j = sos (ksq c) i j).
  { intros i j Hi Hj. rewrite allb_ok in C4. specialize (C4 i Hi). cbn beta in C4. rewrite allb_ok in C4. specialize (C4 j Hj). apply qeqb_ok in C4. exact C4. }
  assert (SQ : forall d l, In (d, l) (ksq c) -> (0 <= d)%Qc).
  { intros d l Hd. rewrite forallb_forall in C5. specialize (C5 _ Hd). apply qleb_ok in C5. exact C5. }
  assert (B : (sum k (fun j => (apply k (at_ (qQ q)) u j + vget (qc q) j) * (V j - u j)) <= qp_value q V - qp_value q u)%Qc).
  { unfold qp_value. fold k. apply convex_bound.
    - intros i j Hi Hj. rewrite !Q0 by assumption. apply sos_sym.
    - rewrite (sum_ext k _ (fun i => (V i - u i) * apply k (sos (ksq c)) (fun j => V j - u j) i)%Qc).
      + apply sos_quad. exact SQ.
      + intros i Hi. f_equal. apply sum_ext. intros j Hj. rewrite Q0 by assumption. reflexivity. }
  set (mu := nthq (kmu c)) in *. set (la := nthq (kla c)) in *. set (nu := nthq (knu c)) in *.
  assert (G : (0 <= sum k (fun j => (apply k (at_ (qQ q)) u j + vget (qc q) j) * (V j - u j)))%Qc).
  { assert (E : sum k (fun j => (apply k (at_ (qQ q)) u j + vget (qc q) j) * (V j - u j))%Qc
       = (sum (rows (qAeq q)) (fun i => mu i * (apply k (at_ (qAeq q)) u i - apply k (at_ (qAeq q)) V i))
          + sum (rows (qAineq q)) (fun i => la i * (apply k (at_ (qAineq q)) u i - apply k (at_ (qAineq q)) V i))
          + sum k (fun j => nu j * (u j - V j)))%Qc).
    { assert (X : forall (r : nat) (A : nat -> nat -> Qc) (m : nat -> Qc),
        sum r (fun i => m i * (apply k A u i - apply k A V i))%Qc = sum k (fun j => sum r (fun i => m i * A i j) * (u j - V j))%Qc).
      { intros r A m0. transitivity (sum r (fun i => sum k (fun j => m0 i * A i j * (u j - V j))))%Qc.
        - apply sum_ext. intros i Hi. unfold apply. rewrite <- sum_sub, <- sum_scal_l. apply sum_ext. intros; ring.
        - rewrite sum_swap. apply sum_ext. intros j Hj. rewrite <- sum_scal_r. reflexivity. }
      rewrite !X, <- !sum_add. apply sum_ext. intros j Hj. rewrite allb_ok in C11. specialize (C11 j Hj). apply qeqb_ok in C11.
      set (a := apply k (at_ (qQ q)) u j) in *. set (s1 := sum (rows (qAeq q)) _) in *. set (s2 := sum (rows (qAineq q)) _) in *.
      replace (a + vget (qc q) j)%Qc with (a + vget (qc q) j + s1 + s2 + nu j - s1 - s2 - nu j)%Qc by ring. rewrite C11. ring. }
    rewrite E. rewrite C1 in *. rewrite C2 in *.
    assert (G1 : sum (rows (qAeq q)) (fun i => mu i * (apply k (at_ (qAeq q)) u i - apply k (at_ (qAeq q)) V i))%Qc = 0%Qc).
    { apply sum_zero. intros i Hi. pose proof (C6 i Hi) as A1. pose proof (F1 i Hi) as A2. cbn in A1, A2. unfold q_eq_ext in *. rewrite A1 in A2. injection A2 as A2.
      rewrite A2. ring. }
    assert (G2 : (0 <= sum (rows (qAineq q)) (fun i => la i * (apply k (at_ (qAineq q)) u i - apply k (at_ (qAineq q)) V i)))%Qc).
    { apply sum_nonneg. intros i Hi. rewrite allb_ok in C9. specialize (C9 i Hi). cbn beta in C9. apply orb_true_iff in C9 as [C9|C9].
      - apply qeqb_ok in C9. rewrite C9. rewrite Qcmult_0_l. apply Qcle_refl.
      - apply andb_true_iff in C9 as [L T]. apply qleb_ok in L. apply tightb_ok in T. pose proof (F2 i Hi) as A2. cbn in A2. rewrite T in A2. cbn in A2.
        apply qc_mul_nonneg; [exact L|]. qc_lra. }
    assert (G3 : (0 <= sum k (fun j => nu j * (u j - V j)))%Qc).
    { apply sum_nonneg. intros j Hj. rewrite allb_ok in C10. specialize (C10 j Hj). cbn beta in C10. rewrite C3 in F3. destruct (F3 j Hj) as [L1 L2].
      apply orb_true_iff in C10 as [C10|C10]; [apply orb_true_iff in C10 as [C10|C10]|].
      - apply qeqb_ok in C10. rewrite C10. rewrite Qcmult_0_l. apply Qcle_refl.
      - apply andb_true_iff in C10 as [L T]. apply qleb_ok in L. apply tightb_ok in T. rewrite T in L2. cbn in L2. apply qc_mul_nonneg; [exact L|]. qc_lra.
      - apply andb_true_iff in C10 as [L T]. apply qleb_ok in L. apply tightb_ok in T. rewrite T in L1. cbn in L1.
        replace (nu j * (u j - V j))%Qc with ((- nu j) * (V j - u j))%Qc by ring. apply qc_mul_nonneg; qc_lra. }
    rewrite G1. qc_lra. }
  qc_lra.
Qed.

Lemma pick_check q cs c : pick q cs = Some c -> kkt_check q c = true.
Proof. induction cs as [|x t IH]; cbn; [discriminate|]. destruct (kkt_check q x) eqn:E; [intro H; injection H as <-; exact E|exact IH]. Qed.
Lemma env_certs_exact cs : exact_solver (env_certs cs).
Proof.
  intros k a b q r. unfold env_certs. cbn [s_qp]. destruct (Nat.eqb_spec k (vsize (qc q))) as [->|]; [|discriminate].
  destruct (pick q cs) as [c|] eqn:E; [|discriminate]. intros H _. injection H as <-. split; [reflexivity|]. apply kkt_optimal. eapply pick_check; exact E.
Qed.
Lemma env_certs_size cs k a b q r : s_qp (env_certs cs) k a b q = (true, r) -> vsize r = k.
Proof.
  unfold env_certs. cbn [s_qp]. destruct (Nat.eqb_spec k (vsize (qc q))) as [->|]; [|discriminate].
  destruct (pick q cs) as [c|]; [|discriminate]. intro H. injection H as <-. reflexivity.
Qed.
Lemma env_certs_sane cs : sane (env_certs cs).
Proof.
  split; [intros M H; cbn; auto|]. intros k a b q r H. exact (env_certs_size cs _ _ _ _ _ H).
Qed.
