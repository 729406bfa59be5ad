(** Checkers.v -- boolean versions of the specification predicates, for concrete witnesses. *)
From Verif Require Import Base Eigen Spec Preview SpecApi Constraints SpecConstraints PreviewProofs.

Definition qleb (a b : Qc) : bool := match Qccompare a b with Gt => false | _ => true end.
Lemma qleb_ok a b : qleb a b = true <-> (a <= b)%Qc.
Proof.
  unfold qleb, Qccompare, Qcle. rewrite Qle_alt. destruct (Qcompare a b); split; intro H; congruence || discriminate.
Qed.
Definition qeqb (a b : Qc) : bool := if Qc_eq_dec a b then true else false.
Lemma qeqb_ok a b : qeqb a b = true <-> a = b.
Proof. unfold qeqb. destruct (Qc_eq_dec a b); split; congruence. Qed.
Definition q_le_extb (q : Qc) (e : ext) : bool := match e with NInf => false | Fin x => qleb q x | PInf => true end.
Lemma q_le_extb_ok q e : q_le_extb q e = true <-> q_le_ext q e.
Proof. destruct e; cbn; [split; [discriminate|tauto]|apply qleb_ok|tauto]. Qed.
Definition ext_le_qb (e : ext) (q : Qc) : bool := match e with NInf => true | Fin x => qleb x q | PInf => false end.
Lemma ext_le_qb_ok e q : ext_le_qb e q = true <-> ext_le_q e q.
Proof. destruct e; cbn; [tauto|apply qleb_ok|split; [discriminate|tauto]]. Qed.
Definition cmpb (ineq : bool) (q : Qc) (e : ext) : bool :=
  if ineq then q_le_extb q e else match e with Fin x => qeqb x q | _ => false end.
Lemma cmpb_ok ineq q e : cmpb ineq q e = true <-> cmp ineq q e.
Proof.
  destruct ineq; cbn; [apply q_le_extb_ok|]. unfold q_eq_ext. destruct e as [|x|]; try (split; discriminate).
  rewrite qeqb_ok. split; [intros ->; reflexivity|intro H; injection H; auto].
Qed.
Definition allb (n : nat) (P : nat -> bool) : bool := forallb P (seq 0 n).
Lemma allb_ok n P : allb n P = true <-> forall i, i < n -> P i = true.
Proof.
  unfold allb. rewrite forallb_forall. split; intros H i Hi; apply H; [apply in_seq; lia|apply in_seq in Hi; lia].
Qed.
Lemma allb_spec n P (Q : nat -> Prop) : (forall i, P i = true <-> Q i) -> (allb n P = true <-> forall i, i < n -> Q i).
Proof. intro H. rewrite allb_ok. split; intros G i Hi; apply H; apply G; exact Hi. Qed.

Definition rows_holdb ineq r c A b x : bool := allb r (fun i => cmpb ineq (apply c A x i) (b i)).
Lemma rows_holdb_ok ineq r c A b x : rows_holdb ineq r c A b x = true <-> rows_hold ineq r c A b x.
Proof. unfold rows_holdb, rows_hold. apply allb_spec. intro i. apply cmpb_ok. Qed.
Definition within_boundsb n lb ub x : bool := allb n (fun i => ext_le_qb (lb i) (x i) && q_le_extb (x i) (ub i)).
Lemma within_boundsb_ok n lb ub x : within_boundsb n lb ub x = true <-> within_bounds n lb ub x.
Proof.
  unfold within_boundsb, within_bounds. apply allb_spec. intro i.
  rewrite andb_true_iff, ext_le_qb_ok, q_le_extb_ok. tauto.
Qed.
Definition traj_betweenb ps lower upper x U : bool :=
  if Nat.eqb (vsize lower) (xDim ps)
  then allb (nrXStep ps) (fun k => within_boundsb (xDim ps) (vget lower) (vget upper) (state_of ps x U k))
  else within_boundsb (fullXDim ps) (vget lower) (vget upper) (stacked_state ps x U).
Lemma traj_betweenb_ok ps lower upper x U : traj_betweenb ps lower upper x U = true <-> traj_between ps lower upper x U.
Proof.
  unfold traj_betweenb, traj_between. destruct (Nat.eqb (vsize lower) (xDim ps)).
  - apply allb_spec. intro k. apply within_boundsb_ok.
  - apply within_boundsb_ok.
Qed.

(** the scalar system x_{k+1} = x_k + u_k over [n] steps, initial state [z] *)
Definition sps (z n : Z) : psys :=
  match ps_new (mlit [[1%Z]]) (mlit [[1%Z]]) (vlit [0%Z]) (vlit [z]) n with
  | Ok p => match updateSystem p with Some q => q | None => p end
  | _ => ps_default
  end.
Lemma sps_ready z n : n = 1%Z \/ n = 2%Z \/ n = 3%Z -> ready (sps z n).
Proof.
  intro Hn. unfold sps.
  destruct (ps_new (mlit [[1%Z]]) (mlit [[1%Z]]) (vlit [0%Z]) (vlit [z]) n) as [p|e p|] eqn:E;
    [|exfalso; destruct Hn as [->|[->| ->]]; discriminate E|exfalso; destruct Hn as [->|[->| ->]]; discriminate E].
  pose proof E as E'. apply system_inv in E'. destruct E' as [Wf X].
  destruct (updateSystem_ok p Wf) as [q [U _]]. rewrite U. eapply built_ready; eassumption.
Qed.
Definition j0 : junk := Junk (fun _ _ _ => 0%Qc) (fun _ _ => 0%Qc) (fun _ _ => PInf).
