(** Properties_FloatCosts.v -- C61: rounding errors of the cost functions and of the objective of the QP. *)
From Coq Require Import Qcabs.
From Verif Require Import Base Eigen Spec Preview SpecApi PreviewProofs AutoSpan Constraints SpecConstraints Costs SpecCosts
  CostProofs CostMeaning Checkers SpecEndToEnd.
From Verif Require Import Floats SpecFloats FloatProofs FloatRows Binary64 Properties_Floats FloatCosts SpecFloatCosts FloatCostProofs FloatCostRun.
Open Scope Qc_scope.

Lemma near_value u k obj value value0 size : near u k obj (value - value0) size -> rounded_value u k obj value value0 size.
Proof. intros [_ H]. exact H. Qed.
Lemma f_cost_value u F j c0 ps0 h w ps c1 : accurate u F -> fresh_ok c0 -> initializeCost j ps0 c0 = Ok c1 ->
  f_cost_history F ps0 (vsize (kp c0)) (h ++ ((w, ps) :: nil)) -> h = nil \/ ~ step_entry ps c0 ->
  exists c2, f_k_updates F (h ++ ((w, ps) :: nil)) c1 = Some c2 /\
    (forall U, rounded_value u (cost_roundings ps c0) (objective (fullUDim ps) (at_ (kQ c2)) (vget (kc c2)) U)
       (doc_cost ps (set_w c0 w) (vget (x0 ps)) U) (doc_cost ps (set_w c0 w) (vget (x0 ps)) (fun _ => 0))
       (doc_size ps (set_w c0 w) (vget (x0 ps)) U)) /\
    (forall x U, rounded_value u (cost_roundings ps c0)
       (objective (fullUDim ps) (at_ (kQ c2)) (fun j => sum (xDim ps) (fun i => at_ (kE c2) i j * x i) + vget (kf c2) j) U)
       (doc_cost ps (set_w c0 w) x U) (doc_cost ps (set_w c0 w) x (fun _ => 0)) (doc_size ps (set_w c0 w) x U)).
Proof.
  intros Ac Fr I H A. pose proof (proj1 Ac) as Hu.
  destruct (f_cost_run u F j c0 ps0 h w ps c1 Ac Fr I H A) as [c2 [E [E1 [E2 [E3 [E4 [E5 [[_ [_ [D _]]] [En X]]]]]]]]].
  apply Forall_app in H. destruct H as [_ H]. inversion H as [|? ? [_ [C _]] _]; subst. cbn in C.
  destruct (computed_inv F ps C) as [W X0]. exists c2. split; [exact E|]. split.
  - intro U. rewrite <- (proj1 (doc_cost_w ps c0 _ c2 (vget (x0 ps)) U E1 E2 E3 E4 eq_refl)),
      <- (proj1 (doc_cost_w ps c0 _ c2 (vget (x0 ps)) (fun _ => 0) E1 E2 E3 E4 eq_refl)),
      <- (proj2 (doc_cost_w ps c0 _ c2 (vget (x0 ps)) U E1 E2 E3 E4 eq_refl)).
    apply near_value. apply f_value; assumption.
  - intros x U. rewrite <- (proj1 (doc_cost_w ps c0 _ c2 x U E1 E2 E3 E4 eq_refl)),
      <- (proj1 (doc_cost_w ps c0 _ c2 x (fun _ => 0) E1 E2 E3 E4 eq_refl)),
      <- (proj2 (doc_cost_w ps c0 _ c2 x U E1 E2 E3 E4 eq_refl)).
    apply near_value. apply f_value_x; assumption.
Qed.

(** ** Each class.  [kQ], [kc], [kE], [kf] are what the getters Q(), c(), E(), f() return.  The quadratic program that the
    rounded updates produce is worth the documented value up to a constant and up to rounding errors, both with the linear
    term c() (for the current initial state) and with E()' x + f() (for any initial state x). *)
Theorem C61_trajectory_cost : forall u F j M p ps0 h w ps c1, accurate u F ->
  initializeCost j ps0 (mkTrajC M p) = Ok c1 -> f_cost_history F ps0 (vsize p) (h ++ ((w, ps) :: nil)) ->
  h = nil \/ cols M <> xDim ps ->
  exists c2, f_k_updates F (h ++ ((w, ps) :: nil)) c1 = Some c2 /\
    let k := roundings ps (cols M) (if Nat.eqb (cols M) (xDim ps) then nrXStep ps else 1) (vsize p) in
    (forall U, rounded_value u k (objective (fullUDim ps) (at_ (kQ c2)) (vget (kc c2)) U)
       (traj_cost ps M p w (vget (x0 ps)) U) (traj_cost ps M p w (vget (x0 ps)) (fun _ => 0)) (traj_size ps M p w (vget (x0 ps)) U)) /\
    (forall x U, rounded_value u k
       (objective (fullUDim ps) (at_ (kQ c2)) (fun j => sum (xDim ps) (fun i => at_ (kE c2) i j * x i) + vget (kf c2) j) U)
       (traj_cost ps M p w x U) (traj_cost ps M p w x (fun _ => 0)) (traj_size ps M p w x U)).
Proof.
  intros u F j M p ps0 h w ps c1 Ac I H A.
  exact (f_cost_value u F j (mkTrajC M p) ps0 h w ps c1 Ac (conj eq_refl eq_refl) I H A).
Qed.
Theorem C61_target_cost : forall u F j M p ps0 h w ps c1, accurate u F ->
  initializeCost j ps0 (mkTargetC M p) = Ok c1 -> f_cost_history F ps0 (vsize p) (h ++ ((w, ps) :: nil)) ->
  exists c2, f_k_updates F (h ++ ((w, ps) :: nil)) c1 = Some c2 /\
    let k := roundings ps (cols M) 1 (vsize p) in
    (forall U, rounded_value u k (objective (fullUDim ps) (at_ (kQ c2)) (vget (kc c2)) U)
       (target_cost ps M p w (vget (x0 ps)) U) (target_cost ps M p w (vget (x0 ps)) (fun _ => 0))
       (target_size ps M p w (vget (x0 ps)) U)) /\
    (forall x U, rounded_value u k
       (objective (fullUDim ps) (at_ (kQ c2)) (fun j => sum (xDim ps) (fun i => at_ (kE c2) i j * x i) + vget (kf c2) j) U)
       (target_cost ps M p w x U) (target_cost ps M p w x (fun _ => 0)) (target_size ps M p w x U)).
Proof.
  intros u F j M p ps0 h w ps c1 Ac I H.
  exact (f_cost_value u F j (mkTargetC M p) ps0 h w ps c1 Ac (conj eq_refl eq_refl) I H (or_intror (fun x => x))).
Qed.
Theorem C61_control_cost : forall u F j N p ps0 h w ps c1, accurate u F ->
  initializeCost j ps0 (mkCtrlC N p) = Ok c1 -> f_cost_history F ps0 (vsize p) (h ++ ((w, ps) :: nil)) ->
  exists c2, f_k_updates F (h ++ ((w, ps) :: nil)) c1 = Some c2 /\
    let k := roundings ps 0 1 (vsize p) in
    (forall U, rounded_value u k (objective (fullUDim ps) (at_ (kQ c2)) (vget (kc c2)) U)
       (ctrl_cost ps N p w U) (ctrl_cost ps N p w (fun _ => 0)) (ctrl_size ps N p w U)) /\
    (forall x U, rounded_value u k
       (objective (fullUDim ps) (at_ (kQ c2)) (fun j => sum (xDim ps) (fun i => at_ (kE c2) i j * x i) + vget (kf c2) j) U)
       (ctrl_cost ps N p w U) (ctrl_cost ps N p w (fun _ => 0)) (ctrl_size ps N p w U)).
Proof.
  intros u F j N p ps0 h w ps c1 Ac I H.
  exact (f_cost_value u F j (mkCtrlC N p) ps0 h w ps c1 Ac (conj eq_refl eq_refl) I H (or_intror (fun x => x))).
Qed.
Theorem C61_mixed_cost : forall u F j M N p ps0 h w ps c1, accurate u F ->
  initializeCost j ps0 (mkMixedC M N p) = Ok c1 -> f_cost_history F ps0 (vsize p) (h ++ ((w, ps) :: nil)) ->
  h = nil \/ ~ (cols M = xDim ps /\ cols N = uDim ps) ->
  exists c2, f_k_updates F (h ++ ((w, ps) :: nil)) c1 = Some c2 /\
    let k := roundings ps (cols M) (if Nat.eqb (cols M) (xDim ps) && Nat.eqb (cols N) (uDim ps) then nrUStep ps else 1) (vsize p) in
    (forall U, rounded_value u k (objective (fullUDim ps) (at_ (kQ c2)) (vget (kc c2)) U)
       (mixed_cost ps M N p w (vget (x0 ps)) U) (mixed_cost ps M N p w (vget (x0 ps)) (fun _ => 0))
       (mixed_size ps M N p w (vget (x0 ps)) U)) /\
    (forall x U, rounded_value u k
       (objective (fullUDim ps) (at_ (kQ c2)) (fun j => sum (xDim ps) (fun i => at_ (kE c2) i j * x i) + vget (kf c2) j) U)
       (mixed_cost ps M N p w x U) (mixed_cost ps M N p w x (fun _ => 0)) (mixed_size ps M N p w x U)).
Proof.
  intros u F j M N p ps0 h w ps c1 Ac I H A.
  exact (f_cost_value u F j (mkMixedC M N p) ps0 h w ps c1 Ac (conj eq_refl eq_refl) I H A).
Qed.

(** ** The objective handed to the solver: any list of costs, plus the regularization of the code (1e-6 itself is rounded) *)
Theorem C61_objective : forall u F reg ps (l : list item), accurate u F -> within u q1em6 reg -> items_computed F ps l ->
  exists Q c, f_objective F reg (fullUDim ps) (map snd l) = Some (Q, c) /\
    rows Q = fullUDim ps /\ cols Q = fullUDim ps /\ vsize c = fullUDim ps /\
    forall U, rounded_value u (items_roundings ps l) (objective (fullUDim ps) (at_ Q) (vget c) U)
      (regularization (fullUDim ps) U + items_cost ps (vget (x0 ps)) U l)
      (items_cost ps (vget (x0 ps)) (fun _ => 0) l)
      (regularization (fullUDim ps) U + items_size ps (vget (x0 ps)) U l).
Proof.
  intros u F reg ps l Ac Wr H. destruct (f_objective_near u F reg ps l Ac Wr H) as [Q [c [E [R1 [R2 [R3 N]]]]]].
  exists Q, c. split; [exact E|]. split; [exact R1|]. split; [exact R2|]. split; [exact R3|]. intro U. apply near_value.
  eapply near_eq; [apply N|ring|reflexivity].
Qed.
(** a control that is not worse, for the computed objective, than another one by more than [tol], is not worse for the
    documented cost by more than [tol] and the rounding errors at both *)
Theorem C61_near_optimal : forall u F reg ps (l : list item) Q c tol U V, accurate u F -> within u q1em6 reg ->
  items_computed F ps l -> f_objective F reg (fullUDim ps) (map snd l) = Some (Q, c) ->
  objective (fullUDim ps) (at_ Q) (vget c) U <= objective (fullUDim ps) (at_ Q) (vget c) V + tol ->
  let total W := regularization (fullUDim ps) W + items_cost ps (vget (x0 ps)) W l in
  let size W := regularization (fullUDim ps) W + items_size ps (vget (x0 ps)) W l in
  total U <= total V + tol + growth u (items_roundings ps l) * (size U + size V).
Proof.
  intros u F reg ps l Q c tol U V Ac Wr H E Le total size.
  destruct (C61_objective u F reg ps l Ac Wr H) as [Q' [c' [E' [_ [_ [_ N]]]]]]. rewrite E in E'. injection E' as <- <-.
  pose proof (N U) as NU. pose proof (N V) as NV. unfold rounded_value in NU, NV. fold (total U) (size U) in NU. fold (total V) (size V) in NV.
  apply Qcabs_Qcle_condition in NU. apply Qcabs_Qcle_condition in NV. rewrite Qcmult_plus_distr_r.
  revert NU NV Le. generalize (objective (fullUDim ps) (at_ Q) (vget c) U) (objective (fullUDim ps) (at_ Q) (vget c) V)
    (growth u (items_roundings ps l) * size U) (growth u (items_roundings ps l) * size V) (total U) (total V)
    (items_cost ps (vget (x0 ps)) (fun _ => 0) l). intros o1 o2 g1 g2 t1 t2 z [A1 A2] [B1 B2] L. qc_lra.
Qed.
(** exact arithmetic: no error *)
Theorem C61_exact : forall F reg ps (l : list item), accurate 0 F -> within 0 q1em6 reg -> items_computed F ps l ->
  exists Q c, f_objective F reg (fullUDim ps) (map snd l) = Some (Q, c) /\
    forall U, objective (fullUDim ps) (at_ Q) (vget c) U =
      regularization (fullUDim ps) U + items_cost ps (vget (x0 ps)) U l - items_cost ps (vget (x0 ps)) (fun _ => 0) l.
Proof.
  intros F reg ps l Ac Wr H. destruct (C61_objective 0 F reg ps l Ac Wr H) as [Q [c [E [_ [_ [_ N]]]]]].
  exists Q, c. split; [exact E|]. intro U. specialize (N U). unfold rounded_value in N.
  assert (G : growth 0 (items_roundings ps l) = 0).
  { unfold growth. rewrite Qcplus_0_r. generalize (items_roundings ps l). intro k.
    assert (P : Qcpower 1 k = 1) by (induction k as [|k IH]; [reflexivity|]; cbn [Qcpower]; rewrite IH; ring). rewrite P. ring. }
  rewrite G, Qcmult_0_l in N. apply Qcabs_Qcle_condition in N. destruct N as [N1 N2].
  set (a := objective (fullUDim ps) (at_ Q) (vget c) U) in *.
  set (b := regularization (fullUDim ps) U + items_cost ps (vget (x0 ps)) U l - items_cost ps (vget (x0 ps)) (fun _ => 0) l) in *.
  assert (Z : a - b = 0) by (apply Qcle_antisym; [exact N2|]; revert N1; generalize (a - b); intros z; qc_lra).
  replace a with (a - b + b) by ring. rewrite Z. ring.
Qed.

(** ** Examples: four costs, one of each class, in double precision *)
Definition C61_M : mx := Mx 1 1 (fun _ _ => tenth).
Definition C61_p : vec Qc := Vec 1 (fun _ => tenth).
Definition C61_w : vec Qc := Vec 1 (fun _ => tenth).
Definition C61_costs : list cost :=
  (mkTrajC C61_M C61_p :: mkTargetC C61_M C61_p :: mkCtrlC C61_M C61_p :: mkMixedC C61_M C61_M C61_p :: nil)%list.
Definition C61_item (F : arith) (ps : psys) (c0 : cost) : option item :=
  match initializeCost j0 ps c0 with
  | Ok c1 => c2 <- f_k_updates F ((C61_w, ps) :: nil) c1 ;; Some (c0, C61_w, c2)
  | _ => None
  end.
Fixpoint C61_items (F : arith) (ps : psys) (l : list cost) : option (list item) :=
  match l with
  | nil => Some nil
  | (c0 :: t)%list => a <- C61_item F ps c0 ;; r <- C61_items F ps t ;; Some (a :: r)%list
  end.
Definition reg64 : Qc := round64 q1em6.
Definition C61_check (F : arith) : bool :=
  match fps F with
  | Some ps =>
      match C61_items F ps C61_costs with
      | Some l =>
          match f_objective F reg64 3 (map snd l) with
          | Some (Q, c) =>
              let U := vget (vlit (1 :: 2 :: 3 :: nil)%Z) in let x := vget (x0 ps) in
              let exact := regularization 3 U + items_cost ps x U l - items_cost ps x (fun _ => 0) l in
              let err := Qcabs (objective 3 (at_ Q) (vget c) U - exact) in
              Nat.eqb (length l) 4 && qlt 0 err && qlt 0 exact &&
              Qle_bool (this err) (this (growth u64 (items_roundings ps l) * (regularization 3 U + items_size ps x U l)))
          | None => false
          end
      | None => false
      end
  | None => false
  end.
Example C61_example : C61_check arith64 = true /\ C61_check arith64_fma = true.
Proof. split; vm_compute; reflexivity. Qed.
(** the hypotheses are met: by the regularization, and by the costs of the example *)
Example C61_reg : within u64 q1em6 reg64.
Proof. unfold within, Qcle. vm_compute. discriminate. Qed.
Lemma C61_items_ok F ps l a : computed F ps -> (forall c, In c l -> fresh_cost c /\ vsize (kp c) = 1%nat) ->
  C61_items F ps l = Some a -> items_computed F ps a.
Proof.
  intros C. revert a. induction l as [|c0 l IH]; intros a Hl E.
  - cbn in E. injection E as <-. apply Forall_nil.
  - cbn [C61_items] in E. destruct (C61_item F ps c0) as [b|] eqn:Eb; [|discriminate E]. cbn [obind] in E.
    destruct (C61_items F ps l) as [r|] eqn:Er; [|discriminate E]. cbn [obind] in E. injection E as <-.
    apply Forall_cons; [|apply IH; [intros c Hc; apply Hl; right; exact Hc|reflexivity]].
    unfold C61_item in Eb. destruct (initializeCost j0 ps c0) as [c1|e c1|] eqn:I; [|discriminate Eb|discriminate Eb].
    destruct (f_k_updates F ((C61_w, ps) :: nil) c1) as [c2|] eqn:U; [|discriminate Eb]. cbn [obind] in Eb. injection Eb as <-.
    destruct (Hl c0 (or_introl eq_refl)) as [Fr V]. split; [exact Fr|].
    exists j0, ps, nil, c1. split; [exact I|]. split.
    + apply Forall_cons; [|apply Forall_nil]. cbn [fst snd]. split; [rewrite V; reflexivity|]. split; [exact C|]. repeat split.
    + split; [left; reflexivity|exact U].
Qed.
Example C61_hypotheses : forall p a, fps arith64 = Some p -> C61_items arith64 p C61_costs = Some a -> items_computed arith64 p a.
Proof.
  intros p a H. apply fps_computed in H. apply C61_items_ok; [exact H|].
  intros c [<-|[<-|[<-|[<-|[]]]]]; split; constructor.
Qed.
Print Assumptions C61_trajectory_cost.
Print Assumptions C61_target_cost.
Print Assumptions C61_control_cost.
Print Assumptions C61_mixed_cost.
Print Assumptions C61_objective.
Print Assumptions C61_near_optimal.
Print Assumptions C61_exact.
