(** Meaning.v -- constraints and costs as affine and quadratic functions of the initial state and the control. *)
From Coq Require Import Permutation.
From Verif Require Import Base Eigen Spec Preview SpecApi PreviewProofs AutoSpan AutoSpanProofs Constraints ConstraintProofs
  SpecConstraints ConstraintMeaning Checkers Costs SpecCosts CostProofs CostMeaning Properties_Costs Controller Registry SpecController Assembly
  Results Properties_Assembly Properties_Results SpecProtocol Protocol Properties_Protocol SpecEndToEnd SpanData Properties_Registry
  EndToEnd EndToEndQP EndToEndRows EndToEndMain Convex ExactSolver Properties_EndToEnd Determined StateExt SpecMeaning.

(** ** Affine combinations *)
Lemma apply_mix n M t x y i : apply n M (mix t x y) i = (t * apply n M x i + (1 - t) * apply n M y i)%Qc.
Proof. unfold apply, mix. rewrite <- !sum_scal_l, <- sum_add. apply sum_ext. intros. ring. Qed.
Lemma state_mix n m A B d t x y U V k i :
  state_at n m A B d (mix t x y) (mix t U V) k i = (t * state_at n m A B d x U k i + (1 - t) * state_at n m A B d y V k i)%Qc.
Proof.
  revert i. induction k as [|k IH]; intro i; [reflexivity|]. cbn [state_at].
  rewrite (sum_ext n _ (fun j => t * (A i j * state_at n m A B d x U k j) + (1 - t) * (A i j * state_at n m A B d y V k j))%Qc)
    by (intros; rewrite IH; ring).
  rewrite (sum_ext m (fun j => B i j * mix t U V (k * m + j)%nat)%Qc (fun j => t * (B i j * U (k * m + j)%nat) + (1 - t) * (B i j * V (k * m + j)%nat))%Qc)
    by (intros; unfold mix; ring).
  rewrite !sum_add, !sum_scal_l. ring.
Qed.
Lemma apply_mixes n M t v a b i : (forall j, j < n -> v j = (t * a j + (1 - t) * b j)%Qc) ->
  apply n M v i = (t * apply n M a i + (1 - t) * apply n M b i)%Qc.
Proof. intro H. rewrite <- apply_mix. unfold apply. apply sum_ext. intros j Hj. rewrite H by exact Hj. reflexivity. Qed.
Lemma apply_state_mix ps r M t x y U V k i :
  apply r M (state_of ps (mix t x y) (mix t U V) k) i = (t * apply r M (state_of ps x U k) i + (1 - t) * apply r M (state_of ps y V k) i)%Qc.
Proof. apply apply_mixes. intros. apply state_mix. Qed.
Lemma apply_stacked_mix ps r M t x y U V i :
  apply r M (stacked_state ps (mix t x y) (mix t U V)) i = (t * apply r M (stacked_state ps x U) i + (1 - t) * apply r M (stacked_state ps y V) i)%Qc.
Proof. apply apply_mixes. intros. apply state_mix. Qed.
Lemma apply_control_mix r M m t U V k i :
  apply r M (control_at m (mix t U V) k) i = (t * apply r M (control_at m U k) i + (1 - t) * apply r M (control_at m V k) i)%Qc.
Proof. apply apply_mixes. intros. reflexivity. Qed.

(** ** Constraints *)
Lemma le_mix t (a b x : Qc) : (0 <= t -> t <= 1 -> a <= x -> b <= x -> t * a + (1 - t) * b <= x)%Qc.
Proof.
  intros T0 T1 A B. assert (P1 : (0 <= t * (x - a))%Qc) by (apply qc_mul_nonneg; qc_lra).
  assert (P2 : (0 <= (1 - t) * (x - b))%Qc) by (apply qc_mul_nonneg; qc_lra).
  replace x with (t * x + (1 - t) * x)%Qc by ring. replace (t * (x - a))%Qc with (t * x - t * a)%Qc in P1 by ring.
  replace ((1 - t) * (x - b))%Qc with ((1 - t) * x - (1 - t) * b)%Qc in P2 by ring. qc_lra.
Qed.
Lemma ge_mix t (a b x : Qc) : (0 <= t -> t <= 1 -> x <= a -> x <= b -> x <= t * a + (1 - t) * b)%Qc.
Proof.
  intros T0 T1 A B. pose proof (le_mix t (-a) (-b) (-x) T0 T1 ltac:(qc_lra) ltac:(qc_lra)) as H.
  replace (t * - a + (1 - t) * - b)%Qc with (- (t * a + (1 - t) * b))%Qc in H by ring. qc_lra.
Qed.
Lemma cmp_mix ineq t a b e : (ineq = true -> 0 <= t /\ t <= 1)%Qc -> cmp ineq a e -> cmp ineq b e -> cmp ineq (t * a + (1 - t) * b)%Qc e.
Proof.
  destruct ineq; cbn; intro T.
  - destruct (T eq_refl). destruct e; cbn; try tauto. apply le_mix; assumption.
  - unfold q_eq_ext. intros -> E. injection E as ->. f_equal. ring.
Qed.
Lemma up_mix t a b e : (0 <= t -> t <= 1)%Qc -> (0 <= t)%Qc -> q_le_ext a e -> q_le_ext b e -> q_le_ext (t * a + (1 - t) * b)%Qc e.
Proof. intros T1 T0. destruct e; cbn; try tauto. apply le_mix; auto. Qed.
Lemma low_mix t a b e : (0 <= t)%Qc -> (t <= 1)%Qc -> ext_le_q e a -> ext_le_q e b -> ext_le_q e (t * a + (1 - t) * b)%Qc.
Proof. intros T0 T1. destruct e; cbn; try tauto. apply ge_mix; auto. Qed.
Lemma mixed_ring (t a b c d : Qc) : (t * a + (1 - t) * b + (t * c + (1 - t) * d) = t * (a + c) + (1 - t) * (b + d))%Qc.
Proof. ring. Qed.

(** the set of initial states and controls that satisfy a constraint is convex, that of an equality affine *)
Lemma imposes_mix ps d t x y U V : (is_equality d \/ 0 <= t /\ t <= 1)%Qc -> imposes ps d x U -> imposes ps d y V ->
  imposes ps d (mix t x y) (mix t U V).
Proof.
  intro T.
  assert (TI : forall q, (is_equality d -> q = false) -> q = true -> (0 <= t /\ t <= 1)%Qc).
  { intros q H ->. destruct T as [T|T]; [|exact T]. discriminate (H T). }
  destruct d as [E f q|G f q|E G f q|lo up|lo up]; cbn [imposes means is_equality] in *.
  - unfold traj_means. destruct (Nat.eqb _ _).
    + intros H1 H2 k i Hk Hi. rewrite apply_state_mix. apply cmp_mix; [exact (TI _ (fun e => e))|auto|auto].
    + intros H1 H2 i Hi. rewrite apply_stacked_mix. apply cmp_mix; [exact (TI _ (fun e => e))|auto|auto].
  - unfold ctrl_means. destruct (Nat.eqb _ _).
    + intros H1 H2 k i Hk Hi. rewrite apply_control_mix. apply cmp_mix; [exact (TI _ (fun e => e))|auto|auto].
    + intros H1 H2 i Hi. rewrite apply_mix. apply cmp_mix; [exact (TI _ (fun e => e))|auto|auto].
  - unfold mixed_means. destruct (_ && _).
    + intros H1 H2 k i Hk Hi. rewrite apply_state_mix, apply_control_mix, mixed_ring. apply cmp_mix; [exact (TI _ (fun e => e))|auto|auto].
    + intros H1 H2 i Hi. rewrite apply_stacked_mix, apply_mix, mixed_ring. apply cmp_mix; [exact (TI _ (fun e => e))|auto|auto].
  - destruct T as [[]|[T0 T1]]. unfold traj_below_both, below_both. destruct (Nat.eqb _ _).
    + intros H1 H2 k Hk i Hi. unfold state_of. rewrite state_mix. destruct (H1 k Hk i Hi), (H2 k Hk i Hi).
      split; [intro NL|]; apply up_mix; auto.
    + intros H1 H2 i Hi. unfold stacked_state, state_of. rewrite state_mix. destruct (H1 i Hi), (H2 i Hi).
      split; [intro NL|]; apply up_mix; auto.
  - destruct T as [[]|[T0 T1]]. unfold ctrl_between, within_bounds. destruct (Nat.eqb _ _).
    + intros H1 H2 k Hk i Hi. unfold control_at, mix. destruct (H1 k Hk i Hi), (H2 k Hk i Hi).
      split; [apply low_mix|apply up_mix]; auto.
    + intros H1 H2 i Hi. unfold mix. destruct (H1 i Hi), (H2 i Hi). split; [apply low_mix|apply up_mix]; auto.
Qed.
Lemma representable_mix n t U V : (0 <= t)%Qc -> (t <= 1)%Qc -> representable n U -> representable n V -> representable n (mix t U V).
Proof. intros T0 T1 H1 H2 i Hi. unfold mix. destruct (H1 i Hi), (H2 i Hi). split; [apply low_mix|apply up_mix]; auto. Qed.

(** ** Costs: sums of weighted squares of affine functions *)
Definition cost_steps (ps : psys) (d : cost_data) : nat :=
  match d with
  | DTrajC M p => if Nat.eqb (cols M) (xDim ps) then nrXStep ps else 1
  | DTargetC M p => 1
  | DCtrlC N p => if Nat.eqb (cols N) (uDim ps) then nrUStep ps else 1
  | DMixedC M N p => if Nat.eqb (cols M) (xDim ps) && Nat.eqb (cols N) (uDim ps) then nrUStep ps else 1
  end.
Definition cost_lines (d : cost_data) : nat := match d with DTrajC M _ | DTargetC M _ | DCtrlC M _ | DMixedC M _ _ => rows M end.
Definition resid (ps : psys) (d : cost_data) (x U : nat -> Qc) (k i : nat) : Qc :=
  (match d with
  | DTrajC M p => if Nat.eqb (cols M) (xDim ps) then apply (xDim ps) (at_ M) (state_of ps x U k) i - vget p i
                  else apply (fullXDim ps) (at_ M) (stacked_state ps x U) i - vget p i
  | DTargetC M p => apply (xDim ps) (at_ M) (state_of ps x U (nrUStep ps)) i - vget p i
  | DCtrlC N p => if Nat.eqb (cols N) (uDim ps) then apply (uDim ps) (at_ N) (control_at (uDim ps) U k) i - vget p i
                  else apply (fullUDim ps) (at_ N) U i - vget p i
  | DMixedC M N p => if Nat.eqb (cols M) (xDim ps) && Nat.eqb (cols N) (uDim ps)
                  then apply (xDim ps) (at_ M) (state_of ps x U k) i + apply (uDim ps) (at_ N) (control_at (uDim ps) U k) i - vget p i
                  else apply (fullXDim ps) (at_ M) (stacked_state ps x U) i + apply (fullUDim ps) (at_ N) U i - vget p i
  end)%Qc.
Lemma sum1 f : sum 1 f = f 0. Proof. cbn [sum]. ring. Qed.
Lemma cost_value_resid ps d w x U :
  cost_value ps d w x U = sum (cost_steps ps d) (fun k => wsq (cost_lines d) (vget w) (resid ps d x U k)).
Proof.
  destruct d as [M p|M p|N p|M N p]; cbn [cost_value cost_steps cost_lines]; unfold traj_cost, target_cost, ctrl_cost, mixed_cost, resid;
    repeat match goal with |- context [if ?b then _ else _] => destruct b end; rewrite ?sum1; reflexivity.
Qed.
Lemma resid_mix ps d t x y U V k i : resid ps d (mix t x y) (mix t U V) k i = (t * resid ps d x U k i + (1 - t) * resid ps d y V k i)%Qc.
Proof.
  unfold resid. destruct d as [M p|M p|N p|M N p];
    repeat match goal with |- context [if ?b then _ else _] => destruct b end;
    rewrite ?apply_state_mix, ?apply_stacked_mix, ?apply_control_mix, ?apply_mix; ring.
Qed.
Lemma apply_same n M v v' i : (forall j, v j = v' j) -> apply n M v i = apply n M v' i.
Proof. intro H. unfold apply. apply sum_ext. intros. rewrite H. reflexivity. Qed.
Lemma state_same ps x y U V : (forall j, x j = y j) -> (forall j, U j = V j) -> forall k i, state_of ps x U k i = state_of ps y V k i.
Proof.
  intros HX HU. unfold state_of. induction k as [|k IH]; intro i; [apply HX|]. cbn [state_at]. f_equal. f_equal; apply sum_ext; intros; [rewrite IH|rewrite HU]; reflexivity.
Qed.
Lemma resid_ext ps d x y U V k i : (forall j, x j = y j) -> (forall j, U j = V j) -> resid ps d x U k i = resid ps d y V k i.
Proof.
  intros HX HU. pose proof (state_same ps x y U V HX HU) as ES. unfold resid.
  destruct d as [M p|M p|N p|M N p]; repeat match goal with |- context [if ?b then _ else _] => destruct b end;
    rewrite ?(apply_same _ _ _ _ i (ES k)), ?(apply_same _ _ _ _ i (ES (nrUStep ps))), ?(apply_same _ _ U V i HU),
      ?(apply_same _ _ (control_at (uDim ps) U k) (control_at (uDim ps) V k) i (fun j => HU _)),
      ?(apply_same _ _ (stacked_state ps x U) (stacked_state ps y V) i (fun j => ES _ _)); reflexivity.
Qed.
Lemma cost_value_same ps d w x y U V : (forall j, x j = y j) -> (forall j, U j = V j) -> cost_value ps d w x U = cost_value ps d w y V.
Proof. intros HX HU. rewrite !cost_value_resid. apply sum_ext. intros. unfold wsq. f_equal. apply sum_ext. intros. rewrite (resid_ext ps d x y U V) by assumption. reflexivity. Qed.
(** square of a combination *)
Definition gap (ps : psys) (d : cost_data) (w : vec Qc) (x U y V : nat -> Qc) : Qc :=
  sum (cost_steps ps d) (fun k => wsq (cost_lines d) (vget w) (fun i => resid ps d x U k i - resid ps d y V k i)%Qc).
Lemma wsq_mix r w t a b : wsq r w (fun i => t * a i + (1 - t) * b i)%Qc =
  (t * wsq r w a + (1 - t) * wsq r w b - t * (1 - t) * wsq r w (fun i => a i - b i))%Qc.
Proof.
  unfold wsq.
  rewrite (sum_ext r _ (fun i => t * (w i * (a i * a i)) + (1 - t) * (w i * (b i * b i)) - t * (1 - t) * (w i * ((a i - b i) * (a i - b i))))%Qc)
    by (intros; ring).
  rewrite sum_sub, sum_add, !sum_scal_l. ring.
Qed.
Lemma cost_value_mix ps d w t x y U V :
  cost_value ps d w (mix t x y) (mix t U V) = (t * cost_value ps d w x U + (1 - t) * cost_value ps d w y V - t * (1 - t) * gap ps d w x U y V)%Qc.
Proof.
  rewrite !cost_value_resid. unfold gap. rewrite <- !sum_scal_l, <- sum_add, <- sum_sub. apply sum_ext. intros k _.
  rewrite <- wsq_mix. unfold wsq. f_equal. apply sum_ext. intros. rewrite resid_mix. reflexivity.
Qed.
Lemma wsq_nonneg r w v : (forall i, i < r -> (0 <= w i)%Qc) -> (0 <= wsq r w v)%Qc.
Proof.
  intro H. unfold wsq. apply qc_mul_nonneg; [apply qleb_ok; reflexivity|]. apply sum_nonneg. intros i Hi.
  apply qc_mul_nonneg; [auto|]. apply qc_sq_nonneg.
Qed.
Lemma gap_nonneg ps d w x U y V : (forall i, i < cost_lines d -> (0 <= vget w i)%Qc) -> (0 <= gap ps d w x U y V)%Qc.
Proof. intro H. apply sum_nonneg. intros k _. apply wsq_nonneg. exact H. Qed.
(** the gap only depends on the differences *)
Lemma resid_shift ps d x y U V D k i :
  (resid ps d x (fun j => U j + D j) k i - resid ps d y (fun j => V j + D j) k i = resid ps d x U k i - resid ps d y V k i)%Qc.
Proof.
  (* u + D and v + D: same midpoint of (u + D, v) and (u, v + D) *)
  pose proof (resid_mix ps d half x y (fun j => U j + D j)%Qc V k i) as H1.
  pose proof (resid_mix ps d half x y U (fun j => V j + D j)%Qc k i) as H2.
  assert (E : forall k i, resid ps d (mix half x y) (mix half (fun j => U j + D j)%Qc V) k i = resid ps d (mix half x y) (mix half U (fun j => V j + D j)%Qc) k i).
  { intros k0 i0. assert (EM : forall j, mix half (fun j => U j + D j)%Qc V j = mix half U (fun j => V j + D j)%Qc j).
    { intro j. unfold mix. assert (HH : (1 - half = half)%Qc) by (apply Qc_is_canon; reflexivity). rewrite HH. ring. }
    apply resid_ext; [reflexivity|exact EM]. }
  rewrite E, H2 in H1.
  assert (HH : (1 - half = half)%Qc) by (apply Qc_is_canon; reflexivity). rewrite HH in H1.
  set (a := resid ps d x (fun j => U j + D j)%Qc k i) in *. set (b := resid ps d y (fun j => V j + D j)%Qc k i) in *.
  set (a0 := resid ps d x U k i) in *. set (b0 := resid ps d y V k i) in *.
  assert (G : (a0 + b = a + b0)%Qc).
  { rewrite <- (half_split (a0 + b)), <- (half_split (a + b0)). rewrite !Qcmult_plus_distr_r. rewrite H1. reflexivity. }
  replace (a - b)%Qc with (a + b0 - b - b0)%Qc by ring. rewrite <- G. ring.
Qed.
Lemma gap_shift ps d w x y U V D : gap ps d w x (fun j => U j + D j)%Qc y (fun j => V j + D j)%Qc = gap ps d w x U y V.
Proof. unfold gap. apply sum_ext. intros k _. unfold wsq. f_equal. apply sum_ext. intros i _. rewrite resid_shift. reflexivity. Qed.

(** ** The registered problem as a function of the initial state and the control *)
Lemma imposes_model p q d x U : same_model p q -> (imposes p d x U <-> imposes q d x U).
Proof. intros [SD [HA [HB Hd]]]. exact (imposes_alike_ps p (ps_xInit q (x0 p)) d x U (conj SD (conj HA (conj HB (conj Hd eq_refl))))). Qed.
Lemma cost_value_model p q d w x U : same_model p q -> cost_value p d w x U = cost_value q d w x U.
Proof. intros [SD [HA [HB Hd]]]. exact (cost_value_alike_ps p (ps_xInit q (x0 p)) d w x U (conj SD (conj HA (conj HB (conj Hd eq_refl))))). Qed.
Lemma same_model_refl p : same_model p p. Proof. repeat split. Qed.
Lemma same_model_sym p q : same_model p q -> same_model q p.
Proof. intros [SD [HA [HB Hd]]]. split; [apply same_dims_sym; exact SD|auto]. Qed.

Definition value_from (ps : psys) (h : list op) (l : list nat) (x U : nat -> Qc) : Qc :=
  (total_cost_from ps h l x U + regularization (fullUDim ps) U)%Qc.
Lemma reg_wsq n U : regularization n U = wsq n (fun _ => q1em6) U.
Proof. unfold regularization, wsq. rewrite <- sum_scal_l. reflexivity. Qed.
Definition value_gap (ps : psys) (h : list op) (l : list nat) (x U y V : nat -> Qc) : Qc :=
  (lsum l (fun i => match cost_data_of h i with Some d => gap ps d (weights_of h i) x U y V | None => 0 end)
   + wsq (fullUDim ps) (fun _ => q1em6) (fun i => U i - V i))%Qc.
Lemma value_mix ps h l t x y U V :
  value_from ps h l (mix t x y) (mix t U V) =
  (t * value_from ps h l x U + (1 - t) * value_from ps h l y V - t * (1 - t) * value_gap ps h l x U y V)%Qc.
Proof.
  unfold value_from, value_gap. rewrite !reg_wsq. unfold mix at 3.
  rewrite (wsq_mix (fullUDim ps) (fun _ => q1em6) t U V).
  assert (T : total_cost_from ps h l (mix t x y) (mix t U V) =
    (t * total_cost_from ps h l x U + (1 - t) * total_cost_from ps h l y V
     - t * (1 - t) * lsum l (fun i => match cost_data_of h i with Some d => gap ps d (weights_of h i) x U y V | None => 0 end))%Qc).
  { unfold total_cost_from. rewrite <- !lsum_scal, <- lsum_add, <- lsum_sub. apply lsum_ext. intros i _.
    destruct (cost_data_of h i); [apply cost_value_mix|ring]. }
  rewrite T. ring.
Qed.
Lemma value_gap_shift ps h l x y U V D : value_gap ps h l x (fun j => U j + D j)%Qc y (fun j => V j + D j)%Qc = value_gap ps h l x U y V.
Proof.
  unfold value_gap. f_equal.
  - apply lsum_ext. intros i _. destruct (cost_data_of h i); [apply gap_shift|reflexivity].
  - unfold wsq. f_equal. apply sum_ext. intros. ring.
Qed.
Lemma q1em6_nonneg : (0 <= q1em6)%Qc. Proof. apply qleb_ok. reflexivity. Qed.
Lemma value_gap_nonneg ps h l x y U V :
  (forall i d, In i l -> cost_data_of h i = Some d -> forall r, r < cost_lines d -> (0 <= vget (weights_of h i) r)%Qc) ->
  (0 <= value_gap ps h l x U y V)%Qc.
Proof.
  intro H. unfold value_gap. assert (A : (0 <= lsum l (fun i => match cost_data_of h i with Some d => gap ps d (weights_of h i) x U y V | None => 0 end))%Qc).
  { apply lsum_nonneg. intros i Hi. destruct (cost_data_of h i) as [d|] eqn:E; [|apply Qcle_refl]. apply gap_nonneg. exact (H i d Hi E). }
  assert (B : (0 <= wsq (fullUDim ps) (fun _ => q1em6) (fun i => U i - V i)%Qc)%Qc) by (apply wsq_nonneg; intros; apply q1em6_nonneg).
  qc_lra.
Qed.
Lemma value_ext ps h l x x' U U' : ready ps -> (forall i, i < xDim ps -> x i = x' i) -> (forall j, j < fullUDim ps -> U j = U' j) ->
  value_from ps h l x U = value_from ps h l x' U'.
Proof.
  intros R HX HU. unfold value_from, total_cost_from, regularization. f_equal.
  - apply lsum_ext. intros i _. destruct (cost_data_of h i); [|reflexivity]. apply cost_value_ext_x; assumption.
  - f_equal. f_equal. apply sum_ext. intros j Hj. rewrite HU by exact Hj. reflexivity.
Qed.
(** the value does not increase, and strictly decreases, towards the middle *)
Lemma value_convex ps h l t x y U V :
  (forall i d, In i l -> cost_data_of h i = Some d -> forall r, r < cost_lines d -> (0 <= vget (weights_of h i) r)%Qc) ->
  (0 <= t)%Qc -> (t <= 1)%Qc ->
  (value_from ps h l (mix t x y) (mix t U V) <= t * value_from ps h l x U + (1 - t) * value_from ps h l y V)%Qc.
Proof.
  intros W T0 T1. rewrite value_mix. pose proof (value_gap_nonneg ps h l x y U V W) as G.
  assert (P : (0 <= t * (1 - t) * value_gap ps h l x U y V)%Qc) by (apply qc_mul_nonneg; [apply qc_mul_nonneg; [exact T0|qc_lra]|exact G]). qc_lra.
Qed.

(** ** One solve *)
Section Posed.
Variables (n m N : nat) (h : list op) (w : world) (p : nat) (e : senv) (b : bool) (w' : world).
Hypothesis PO : posed n m N h w p e b w'.
Notation ps := (wps w' p).

Lemma po_ready : ready ps /\ same_dims ps (dps n m N) /\ same_model ps (wps w p) /\ x0 ps = x0 (wps w p).
Proof using PO.
  destruct PO as [SF FP CA HO RE Ep NI EV FS BD So]. destruct (sv_ps n m N SF h w p e b w' FP RE HO Ep So) as [R [D [D' [X [A [B [d _]]]]]]].
  split; [exact R|]. split; [exact D|]. split; [|exact X]. split; [exact D'|]. split; [exact A|]. split; [exact B|exact d].
Qed.
Lemma po_full : fullUDim ps = m * N.
Proof using PO. destruct po_ready as [_ [D _]]. transitivity (fullUDim (dps n m N)); [apply D|reflexivity]. Qed.
Lemma po_con i : In i (spC (ctl w)) -> exists d, con_data_of h i = Some d /\ valid_shape ps (new_con d).
Proof using PO.
  destruct PO as [SF FP CA HO RE Ep NI EV FS BD So]. intro Hi.
  destruct (sv_con n m N SF h w p e b w' FP RE HO Ep So i CA Hi (EV i Hi)) as [d [Ed _]]. exists d. split; [exact Ed|].
  apply (sv_valid n m N SF h w p e b w' FP RE HO Ep So i d CA Hi (EV i Hi) Ed).
Qed.
Definition is_bound (d : con_data) : Prop := match d with DCtrlB _ _ => True | _ => False end.
Lemma po_bound : spB (ctl w) = [] <-> forall i d, In i (spC (ctl w)) -> con_data_of h i = Some d -> ~ is_bound d.
Proof using PO.
  destruct PO as [SF FP CA HO RE Ep NI EV FS BD So]. pose proof (sv_pinv n m N SF h w FP RE) as P. pose proof (pi_reg _ _ P) as RI.
  assert (K : forall i d, In i (spC (ctl w)) -> con_data_of h i = Some d -> (ck (wcon w i) = KCtrlB <-> is_bound d)).
  { intros i d Hi Ed. destruct (sv_con n m N SF h w p e b w' FP RE HO Ep So i CA Hi (EV i Hi)) as [d' [Ed' [G1 _]]]. rewrite Ed in Ed'. injection Ed' as <-.
    unfold c_given in G1. clear - G1. destruct (ck (wcon w i)); try destruct (fullSizeEntry (wcon w i)); destruct d; cbn [con_alike] in G1; try contradiction; split; intro Q; first [discriminate Q|exact I|reflexivity|contradiction]. }
  assert (T : forall i, has_type BoundConstraint (wcon w i) = true <-> ck (wcon w i) = KCtrlB).
  { intro i. unfold has_type, constraintType. destruct (ck (wcon w i)), (isIneq (wcon w i)); cbn; split; intro Q; try discriminate Q; reflexivity. }
  rewrite (ri_b _ RI). split.
  - intros E i d Hi Ed Bd. apply (K i d Hi Ed) in Bd. apply T in Bd. assert (In i (of_type (wcon w) BoundConstraint (spC (ctl w)))) by (apply in_of_type; auto).
    rewrite E in H. destruct H.
  - intro H. destruct (of_type (wcon w) BoundConstraint (spC (ctl w))) as [|i l] eqn:E; [reflexivity|exfalso].
    assert (I0 : In i (of_type (wcon w) BoundConstraint (spC (ctl w)))) by (rewrite E; left; reflexivity). apply in_of_type in I0 as [Hi Ti].
    destruct (po_con i Hi) as [d [Ed _]]. apply (H i d Hi Ed). apply (K i d Hi Ed). apply T. exact Ti.
Qed.
Lemma po_cost i : In i (spCost (ctl w)) ->
  exists d, cost_data_of h i = Some d /\ cost_fits ps d /\ vsize (weights_of h i) = cost_rows d.
Proof using PO.
  destruct PO as [SF FP CA HO RE Ep NI EV FS BD So]. intro Hi.
  destruct (sv_cost_data n m N SF h w p e b w' FP RE HO Ep So i CA Hi) as [d [Ed [Al [Vw [_ [CF Sw]]]]]]. exists d. split; [exact Ed|].
  split; [eapply fits_alike; eassumption|]. rewrite <- (proj1 Vw), Sw.
  destruct (k_given (wcost w i)), d; cbn [cost_alike] in Al; try tauto; unfold cost_rows; apply Al.
Qed.
Lemma po_weights : nonneg_weights h -> forall i d, In i (spCost (ctl w)) -> cost_data_of h i = Some d -> forall r, r < cost_lines d -> (0 <= vget (weights_of h i) r)%Qc.
Proof using PO.
  destruct PO as [SF FP CA HO RE Ep NI EV FS BD So]. intros NW i d Hi Ed r Hr.
  destruct (sv_cost_data n m N SF h w p e b w' FP RE HO Ep So i CA Hi) as [d' [Ed' [Al [Vw [_ [CF Sw]]]]]]. rewrite Ed in Ed'. injection Ed' as <-.
  destruct (pos_inv_holds n m N SF h w FP RE NW) as [KW _].
  assert (RL : r < vsize (kw (wcost w i))).
  { rewrite Sw. unfold cost_rows. destruct (k_given (wcost w i)), d; cbn [cost_alike cost_fits cost_lines] in *; try tauto;
      repeat match goal with H : _ /\ _ |- _ => destruct H end; repeat match goal with H : meq _ _ |- _ => destruct H as [? [? _]] end; lia. }
  rewrite <- (proj2 Vw r RL). apply KW. exact RL.
Qed.
Lemma po_admissible V : feasible (m_qp (ctl w')) V <-> admissible h w ps V.
Proof using PO. destruct PO as [SF FP CA HO RE Ep NI EV FS BD So]. exact (sv_feasible n m N SF h w p e b w' FP RE HO Ep NI So V CA BD EV). Qed.
End Posed.

Section PosedTrue.
Variables (n m N : nat) (h : list op) (w : world) (p : nat) (e : senv) (w' : world).
Hypotheses (PO : posed n m N h w p e true w') (EX : exact_solver e).
Notation ps := (wps w' p).
Notation U := (vget (m_ctrl (ctl w'))).
Lemma po_optimal : is_trajectory ps (x0 ps) (m_ctrl (ctl w')) (m_traj (ctl w')) /\ admissible h w ps U /\
  (forall V, admissible h w ps V -> (full_cost h w ps U <= full_cost h w ps V)%Qc) /\
  (nonneg_weights h -> forall V, admissible h w ps V -> (full_cost h w ps V <= full_cost h w ps U)%Qc -> forall i, i < fullUDim ps -> V i = U i).
Proof using PO EX.
  destruct PO as [SF FP CA HO RE Ep NI EV FS BD So].
  destruct (C36_end_to_end_partial n m N h w p e w' SF FP CA HO RE Ep NI EV FS BD EX So) as [_ [_ [_ [_ [_ H]]]]]. exact H.
Qed.
End PosedTrue.

(** ** Two solves with the same registered data *)
Section Same.
Variables (n m N : nat) (h1 h2 : list op) (w1 w2 : world) (p1 p2 : nat) (e1 e2 : senv) (b1 b2 : bool) (v1 v2 : world).
Hypotheses (P1 : posed n m N h1 w1 p1 e1 b1 v1) (P2 : posed n m N h2 w2 p2 e2 b2 v2).
Hypotheses (SM : same_model (wps v1 p1) (wps v2 p2)) (SR : same_registered h1 w1 h2 w2).
Lemma same_admissible V : admissible h2 w2 (wps v2 p2) V <->
  all_imposed_from (wps v1 p1) h1 (spC (ctl w1)) (vget (x0 (wps v2 p2))) V /\ (spB (ctl w1) = [] -> representable (fullUDim (wps v1 p1)) V).
Proof using P1 P2 SM SR.
  destruct SR as [LC [DC _]].
  assert (K : forall i, In i (spC (ctl w1)) -> exists d1 d2, con_data_of h1 i = Some d1 /\ con_data_of h2 i = Some d2 /\ con_alike d1 d2 /\ valid_shape (wps v1 p1) (new_con d1)).
  { intros i Hi. destruct (po_con _ _ _ _ _ _ _ _ _ P1 i Hi) as [d1 [E1 V1]]. destruct (DC i Hi) as [A _]. rewrite E1 in A. unfold same_con_data in A.
    destruct (con_data_of h2 i) as [d2|]; [|contradiction]. exists d1, d2. auto. }
  assert (B : spB (ctl w1) = [] <-> spB (ctl w2) = []).
  { rewrite (po_bound _ _ _ _ _ _ _ _ _ P1), (po_bound _ _ _ _ _ _ _ _ _ P2), <- LC.
    split; intros H i d Hi Ed Bd; destruct (K i Hi) as [d1 [d2 [E1 [E2 [A _]]]]].
    - rewrite Ed in E2. injection E2 as <-. apply (H i d1 Hi E1). destruct d1, d; cbn in A, Bd |- *; tauto.
    - rewrite Ed in E1. injection E1 as <-. apply (H i d2 Hi E2). destruct d, d2; cbn in A, Bd |- *; tauto. }
  unfold admissible. rewrite B. destruct SM as [SD _]. assert (FU : fullUDim (wps v2 p2) = fullUDim (wps v1 p1)) by (symmetry; apply SD). rewrite FU.
  assert (G : all_imposed (wps v2 p2) h2 (spC (ctl w2)) V <-> all_imposed_from (wps v1 p1) h1 (spC (ctl w1)) (vget (x0 (wps v2 p2))) V).
  { unfold all_imposed, all_imposed_from. rewrite <- LC. split; intros H i d Hi Ed; destruct (K i Hi) as [d1 [d2 [E1 [E2 [A Vd]]]]].
    - rewrite Ed in E1. injection E1 as <-. apply (imposes_alike _ d d2 _ _ A Vd). apply (imposes_model _ _ _ _ _ SM). apply (H i d2 Hi E2).
    - rewrite Ed in E2. injection E2 as <-. apply (imposes_model _ _ _ _ _ SM). apply (imposes_alike _ d1 d _ _ A Vd). apply (H i d1 Hi E1). }
  rewrite G. reflexivity.
Qed.
Lemma same_value V : full_cost h2 w2 (wps v2 p2) V = value_from (wps v1 p1) h1 (spCost (ctl w1)) (vget (x0 (wps v2 p2))) V.
Proof using P1 P2 SM SR.
  destruct SR as [_ [_ [LK DK]]]. unfold full_cost, value_from, total_cost, total_cost_from. rewrite <- LK.
  destruct SM as [SD _]. assert (FU : fullUDim (wps v2 p2) = fullUDim (wps v1 p1)) by (symmetry; apply SD). rewrite FU. f_equal.
  apply lsum_ext. intros i Hi. destruct (po_cost _ _ _ _ _ _ _ _ _ P1 i Hi) as [d1 [E1 [F1 S1]]]. destruct (DK i Hi) as [A W]. rewrite E1 in A. unfold same_cost_data in A.
  destruct (cost_data_of h2 i) as [d2|]; [|contradiction]. rewrite E1. rewrite <- (cost_value_model _ _ _ _ _ _ SM). symmetry. apply cost_value_alike; assumption.
Qed.
End Same.
Lemma same_registered_refl n m N h w p e b w' : posed n m N h w p e b w' -> same_registered h w h w.
Proof.
  intro P. repeat split; try apply (po_even _ _ _ _ _ _ _ _ _ P i H).
  - destruct (po_con _ _ _ _ _ _ _ _ _ P i H) as [d [E _]]. rewrite E. apply con_alike_refl.
  - destruct (po_cost _ _ _ _ _ _ _ _ _ P i H) as [d [E _]]. rewrite E. apply cost_alike_refl.
Qed.

(** ** Equality constraints only *)
Lemma imposes_same ps d x y U V : (forall j, x j = y j) -> (forall j, U j = V j) -> imposes ps d x U -> imposes ps d y V.
Proof.
  intros HX HU. pose proof (state_same ps x y U V HX HU) as ES.
  assert (EK : forall k n M i, apply n M (state_of ps x U k) i = apply n M (state_of ps y V k) i) by (intros; apply apply_same; apply ES).
  assert (ET : forall n M i, apply n M (stacked_state ps x U) i = apply n M (stacked_state ps y V) i) by (intros; apply apply_same; intro; apply ES).
  assert (EC : forall k n m M i, apply n M (control_at m U k) i = apply n M (control_at m V k) i) by (intros; apply apply_same; intro; apply HU).
  assert (EU : forall n M i, apply n M U i = apply n M V i) by (intros; apply apply_same; apply HU).
  destruct d as [E f q|G f q|E G f q|lo up|lo up]; cbn [imposes means].
  - unfold traj_means. destruct (Nat.eqb _ _); intros H; [intros k i Hk Hi; rewrite <- EK|intros i Hi; rewrite <- ET]; apply H; assumption.
  - unfold ctrl_means. destruct (Nat.eqb _ _); intros H; [intros k i Hk Hi; rewrite <- EC|intros i Hi; rewrite <- EU]; apply H; assumption.
  - unfold mixed_means. destruct (_ && _); intros H; [intros k i Hk Hi; rewrite <- EK, <- EC|intros i Hi; rewrite <- ET, <- EU]; apply H; assumption.
  - unfold traj_below_both, below_both. destruct (Nat.eqb _ _); intros H; [intros k Hk i Hi; rewrite <- ES|intros i Hi; unfold stacked_state; rewrite <- ES]; apply H; assumption.
  - unfold ctrl_between, within_bounds, control_at. destruct (Nat.eqb _ _); intros H; [intros k Hk i Hi|intros i Hi]; rewrite <- HU; apply H; assumption.
Qed.
Lemma two_half : (Q2Qc 2 * half = 1)%Qc. Proof. apply Qc_is_canon; reflexivity. Qed.
(** a + b - c *)
Lemma imposes_corner ps d x U y V W : is_equality d -> imposes ps d x U -> imposes ps d y V -> imposes ps d y W ->
  imposes ps d x (fun j => U j + (V j - W j))%Qc.
Proof.
  intros E A B C.
  pose proof (imposes_mix ps d (Q2Qc 2) _ y _ W (or_introl E) (imposes_mix ps d half x y U V (or_introl E) A B) C) as H.
  revert H. apply imposes_same; intro j; unfold mix.
  - transitivity ((Q2Qc 2 * half) * x j + (Q2Qc 2 - (Q2Qc 2 * half) + 1 - Q2Qc 2) * y j)%Qc; [ring|]. rewrite two_half. ring.
  - transitivity ((Q2Qc 2 * half) * U j + (Q2Qc 2 - (Q2Qc 2 * half)) * V j + (1 - Q2Qc 2) * W j)%Qc; [ring|]. rewrite two_half.
    assert (T : Q2Qc 2 = (1 + 1)%Qc) by (apply Qc_is_canon; reflexivity). rewrite T. ring.
Qed.

Section Affine.
Variables (ps : psys) (h : list op) (lc lk : list nat).
Hypotheses (R : ready ps)
  (EQ : forall i d, In i lc -> con_data_of h i = Some d -> is_equality d)
  (WN : forall i d, In i lk -> cost_data_of h i = Some d -> forall r, r < cost_lines d -> (0 <= vget (weights_of h i) r)%Qc).
Notation E := (all_imposed_from ps h lc).
Notation J := (value_from ps h lk).
Definition minimal (x U : nat -> Qc) : Prop := E x U /\ forall V, E x V -> (J x U <= J x V)%Qc.

Lemma E_mix t x y U V : E x U -> E y V -> E (mix t x y) (mix t U V).
Proof using EQ. intros A B i d Hi Ed. apply imposes_mix; [left; apply (EQ i d Hi Ed)|apply (A i d Hi Ed)|apply (B i d Hi Ed)]. Qed.
Lemma E_corner x U y V W : E x U -> E y V -> E y W -> E x (fun j => U j + (V j - W j))%Qc.
Proof using EQ. intros A B C i d Hi Ed. eapply imposes_corner; [apply (EQ i d Hi Ed)|apply (A i d Hi Ed)|apply (B i d Hi Ed)|apply (C i d Hi Ed)]. Qed.
Lemma E_ext x y U V : (forall i, i < xDim ps -> x i = y i) -> (forall j, j < fullUDim ps -> U j = V j) -> E x U -> E y V.
Proof using R. intros HX HU A i d Hi Ed. apply (imposes_ext ps x y U V d R HX HU). apply (A i d Hi Ed). Qed.

Lemma gap_pos x U V j : j < fullUDim ps -> U j <> V j -> (0 < value_gap ps h lk x U x V)%Qc.
Proof using WN.
  intros Hj Ne. unfold value_gap.
  assert (A : (0 <= lsum lk (fun i => match cost_data_of h i with Some d => gap ps d (weights_of h i) x U x V | None => 0 end))%Qc).
  { apply lsum_nonneg. intros i Hi. destruct (cost_data_of h i) as [d|] eqn:Q; [|apply Qcle_refl]. apply gap_nonneg. exact (WN i d Hi Q). }
  assert (HP : (0 < q1em6)%Qc) by (apply Qc_is_canon || reflexivity).
  assert (B : (0 < wsq (fullUDim ps) (fun _ => q1em6) (fun i => U i - V i)%Qc)%Qc).
  { unfold wsq. apply qc_mul_pos; [reflexivity|]. apply (sum_pos _ _ j); [|exact Hj|].
    - intros i Hi. apply qc_mul_nonneg; [apply q1em6_nonneg|apply qc_sq_nonneg].
    - apply qc_mul_pos; [exact HP|]. apply qc_sq_pos. intro Z. apply Ne. replace (U j) with (U j - V j + V j)%Qc by ring. rewrite Z. ring. }
  qc_lra.
Qed.
Lemma minimal_unique x U V : minimal x U -> minimal x V -> forall j, j < fullUDim ps -> U j = V j.
Proof using R EQ WN.
  intros [A1 O1] [A2 O2] j Hj. destruct (Qc_eq_dec (U j) (V j)) as [Q|Ne]; [exact Q|exfalso].
  pose proof (E_mix half x x U V A1 A2) as AM.
  assert (XX : forall i, mix half x x i = x i) by (intro; unfold mix; ring).
  assert (AM' : E x (mix half U V)) by (revert AM; apply E_ext; auto).
  pose proof (O1 _ AM') as L. pose proof (O2 _ A1) as L2. pose proof (O1 _ A2) as L3.
  pose proof (value_mix ps h lk half x x U V) as M.
  rewrite (value_ext ps h lk (mix half x x) x (mix half U V) (mix half U V) R (fun i _ => XX i) (fun _ _ => eq_refl)) in M.
  pose proof (gap_pos x U V j Hj Ne) as G.
  assert (HH : (1 - half = half)%Qc) by (apply Qc_is_canon; reflexivity). rewrite HH in M.
  assert (EJ : J x U = J x V) by (apply Qcle_antisym; assumption). rewrite EJ in M, L.
  assert (P : (0 < half * half * value_gap ps h lk x U x V)%Qc) by (apply qc_mul_pos; [reflexivity|exact G]).
  pose proof (half_split (J x V)) as HS. rewrite HS in M. qc_lra.
Qed.
Lemma minimal_mix t x y z U V W : (0 <= t)%Qc -> (t <= 1)%Qc -> (forall i, i < xDim ps -> z i = mix t x y i) ->
  minimal x U -> minimal y V -> minimal z W -> forall j, j < fullUDim ps -> W j = mix t U V j.
Proof using R EQ WN.
  intros T0 T1 HZ [A1 O1] [A2 O2] MW j Hj. pose proof MW as [A3 _].
  apply (minimal_unique z W (mix t U V) MW); [|exact Hj].
  assert (AM : E z (mix t U V)).
  { pose proof (E_mix t x y U V A1 A2) as Q. revert Q. apply E_ext; [intros; symmetry; apply HZ; assumption|reflexivity]. }
  split; [exact AM|]. intros Y AY.
  set (D := fun j => (Y j - mix t U V j)%Qc).
  pose proof (O1 _ (E_corner x U z Y (mix t U V) A1 AY AM)) as L1. pose proof (O2 _ (E_corner y V z Y (mix t U V) A2 AY AM)) as L2.
  change (fun j0 => U j0 + (Y j0 - mix t U V j0))%Qc with (fun j0 => U j0 + D j0)%Qc in L1.
  change (fun j0 => V j0 + (Y j0 - mix t U V j0))%Qc with (fun j0 => V j0 + D j0)%Qc in L2.
  pose proof (value_mix ps h lk t x y U V) as M1. pose proof (value_mix ps h lk t x y (fun j => U j + D j)%Qc (fun j => V j + D j)%Qc) as M2.
  rewrite value_gap_shift in M2.
  rewrite (value_ext ps h lk (mix t x y) z (mix t U V) (mix t U V) R (fun i H => eq_sym (HZ i H)) (fun _ _ => eq_refl)) in M1.
  rewrite (value_ext ps h lk (mix t x y) z (mix t (fun j => U j + D j)%Qc (fun j => V j + D j)%Qc) Y R (fun i H => eq_sym (HZ i H))) in M2
    by (intros i _; unfold mix, D; unfold mix; ring).
  rewrite M1, M2.
  assert (P1 : (t * J x U <= t * J x (fun j => U j + D j))%Qc).
  { pose proof (qc_mul_nonneg t (J x (fun j => U j + D j)%Qc - J x U) T0 ltac:(qc_lra)) as Q.
    replace (t * (J x (fun j => U j + D j)%Qc - J x U))%Qc with (t * J x (fun j => U j + D j)%Qc - t * J x U)%Qc in Q by ring. qc_lra. }
  assert (P2 : ((1 - t) * J y V <= (1 - t) * J y (fun j => V j + D j))%Qc).
  { pose proof (qc_mul_nonneg (1 - t) (J y (fun j => V j + D j)%Qc - J y V) ltac:(qc_lra) ltac:(qc_lra)) as Q.
    replace ((1 - t) * (J y (fun j => V j + D j)%Qc - J y V))%Qc with ((1 - t) * J y (fun j => V j + D j)%Qc - (1 - t) * J y V)%Qc in Q by ring. qc_lra. }
  qc_lra.
Qed.
(** inverses *)
Lemma qc_inv_pos (d : Qc) : (0 < d)%Qc -> (0 < / d)%Qc.
Proof using.
  intro H. assert (NZ : (d <> 0)%Qc) by (intro Q; rewrite Q in H; discriminate H).
  assert (Z2 : (d * / d = 1)%Qc) by (field; exact NZ). revert Z2. generalize (/ d)%Qc. intros i Z.
  destruct (Qclt_le_dec 0 i) as [Q|Q]; [exact Q|exfalso].
  pose proof (qc_mul_nonneg d (- i) ltac:(qc_lra) ltac:(qc_lra)) as W. replace (d * - i)%Qc with (- (d * i))%Qc in W by ring. rewrite Z in W.
  apply Qcle_not_lt in W. apply W. reflexivity.
Qed.
Lemma qc_inv_le1 (d : Qc) : (1 <= d)%Qc -> (/ d <= 1)%Qc.
Proof using.
  intro H. assert (P : (0 < d)%Qc) by qc_lra. pose proof (qc_inv_pos d P) as I. assert (NZ : (d <> 0)%Qc) by (intro Q; rewrite Q in P; discriminate P).
  assert (Z2 : ((d - 1) * / d = 1 - / d)%Qc) by (field; exact NZ). revert I Z2. generalize (/ d)%Qc. intros i I Z.
  pose proof (qc_mul_nonneg (d - 1) i ltac:(qc_lra) ltac:(qc_lra)) as W. rewrite Z in W. qc_lra.
Qed.
(** for any combination *)
Lemma minimal_affine t x y z U V W : (forall i, i < xDim ps -> z i = mix t x y i) ->
  minimal x U -> minimal y V -> minimal z W -> forall j, j < fullUDim ps -> W j = mix t U V j.
Proof using R EQ WN.
  intros HZ MU MV MW j Hj.
  destruct (Qclt_le_dec t 0) as [Neg|T0].
  - assert (NZ : (1 - t <> 0)%Qc) by (intro Q; assert ((0 < 1 - t)%Qc) by qc_lra; rewrite Q in H; discriminate H).
    set (s := (- t / (1 - t))%Qc).
    assert (S1 : (s * (1 - t) = - t)%Qc) by (unfold s; field; exact NZ).
    assert (S2 : (1 - s = / (1 - t))%Qc) by (unfold s; field; exact NZ).
    assert (P : (0 < 1 - t)%Qc) by qc_lra.
    pose proof (qc_inv_pos (1 - t) P) as I0. pose proof (qc_inv_le1 (1 - t) ltac:(qc_lra)) as I1. rewrite <- S2 in I0, I1.
    assert (S0 : (0 <= s)%Qc) by (clearbody s; clear S1 S2; qc_lra).
    assert (SL : (s <= 1)%Qc) by (clearbody s; clear S1 S2; qc_lra).
    pose proof (minimal_mix s x z y U W V S0 SL) as Q. specialize (Q ltac:(intros i Hi; unfold mix; rewrite (HZ i Hi), S2; unfold mix, s; field; exact NZ) MU MW MV j Hj).
    unfold mix in Q |- *. rewrite Q, S2. unfold s. field. exact NZ.
  - destruct (Qclt_le_dec 1 t) as [Big|T1]; [|exact (minimal_mix t x y z U V W T0 T1 HZ MU MV MW j Hj)].
    assert (NZ : (t <> 0)%Qc) by (intro Q; rewrite Q in Big; discriminate Big).
    pose proof (qc_inv_pos t ltac:(qc_lra)) as I0. pose proof (qc_inv_le1 t ltac:(qc_lra)) as SL.
    pose proof (minimal_mix (/ t)%Qc z y x W V U (Qclt_le_weak _ _ I0) SL) as Q. specialize (Q ltac:(intros i Hi; unfold mix; rewrite (HZ i Hi); unfold mix; field; exact NZ) MW MV MU j Hj).
    unfold mix in Q |- *. rewrite Q. field. exact NZ.
Qed.
(** a minimizer among the representable controls that is not on the border is one among all *)
Lemma step_inside (a b u v : Qc) : (a < u)%Qc -> (u < b)%Qc ->
  exists s, (0 < s)%Qc /\ (s <= 1)%Qc /\ forall r, (0 <= r)%Qc -> (r <= s)%Qc -> (a <= r * v + (1 - r) * u)%Qc /\ (r * v + (1 - r) * u <= b)%Qc.
Proof using.
  intros Ha Hb.
  assert (DIV : forall c d : Qc, (0 < c)%Qc -> (c < d)%Qc -> exists s, (0 < s)%Qc /\ (s <= 1)%Qc /\ (s * d = c)%Qc).
  { intros c d Hc Hd. assert (NZ : (d <> 0)%Qc) by (intro Q; rewrite Q in Hd; qc_lra).
    exists (c / d)%Qc. split; [apply qc_mul_pos; [exact Hc|apply qc_inv_pos; qc_lra]|]. split; [|field; exact NZ].
    pose proof (qc_mul_nonneg (d - c) (/ d) ltac:(qc_lra) (Qclt_le_weak _ _ (qc_inv_pos d ltac:(qc_lra)))) as Z.
    assert (Z2 : ((d - c) * / d = 1 - c / d)%Qc) by (field; exact NZ). rewrite Z2 in Z. clear Z2. revert Z. generalize (c / d)%Qc. intros; qc_lra. }
  destruct (Qclt_le_dec b v) as [Vb|Vb].
  - destruct (DIV (b - u)%Qc (v - u)%Qc ltac:(qc_lra) ltac:(qc_lra)) as [s [S0 [S1 S2]]]. exists s. split; [exact S0|]. split; [exact S1|].
    intros r R0 R1. pose proof (qc_mul_nonneg r (v - u) R0 ltac:(qc_lra)) as Z1. pose proof (qc_mul_nonneg (s - r) (v - u) ltac:(qc_lra) ltac:(qc_lra)) as Z2.
    replace ((s - r) * (v - u))%Qc with (s * (v - u) - r * (v - u))%Qc in Z2 by ring. rewrite S2 in Z2.
    replace (r * v + (1 - r) * u)%Qc with (u + r * (v - u))%Qc by ring. split; qc_lra.
  - destruct (Qclt_le_dec v a) as [Va|Va].
    + destruct (DIV (u - a)%Qc (u - v)%Qc ltac:(qc_lra) ltac:(qc_lra)) as [s [S0 [S1 S2]]]. exists s. split; [exact S0|]. split; [exact S1|].
      intros r R0 R1. pose proof (qc_mul_nonneg r (u - v) R0 ltac:(qc_lra)) as Z1. pose proof (qc_mul_nonneg (s - r) (u - v) ltac:(qc_lra) ltac:(qc_lra)) as Z2.
      replace ((s - r) * (u - v))%Qc with (s * (u - v) - r * (u - v))%Qc in Z2 by ring. rewrite S2 in Z2.
      replace (r * v + (1 - r) * u)%Qc with (u - r * (u - v))%Qc by ring. split; qc_lra.
    + exists 1%Qc. split; [reflexivity|]. split; [apply Qcle_refl|]. intros r R0 R1. split; [apply ge_mix|apply le_mix]; try assumption; qc_lra.
Qed.
Lemma steps_inside k (a b : Qc) (U V : nat -> Qc) : (forall i, i < k -> (a < U i)%Qc /\ (U i < b)%Qc) ->
  exists s, (0 < s)%Qc /\ (s <= 1)%Qc /\ forall i, i < k -> forall r, (0 <= r)%Qc -> (r <= s)%Qc -> (a <= mix r V U i)%Qc /\ (mix r V U i <= b)%Qc.
Proof using.
  induction k as [|k IH]; intro H.
  - exists 1%Qc. split; [reflexivity|]. split; [apply Qcle_refl|]. intros; lia.
  - destruct IH as [s [S0 [S1 HS]]]; [intros; apply H; lia|]. destruct (H k ltac:(lia)) as [Ha Hb].
    destruct (step_inside a b (U k) (V k) Ha Hb) as [r [R0 [R1 HR]]].
    destruct (Qclt_le_dec s r) as [Q|Q]; [exists s|exists r]; (split; [assumption|]); (split; [assumption|]); intros i Hi z Z0 Z1;
      (destruct (Nat.eq_dec i k) as [->|Ne]; [apply HR; [assumption|qc_lra]|apply HS; [lia|assumption|qc_lra]]).
Qed.
Lemma interior_minimal x U : strictly_representable (fullUDim ps) U -> E x U ->
  (forall V, E x V -> representable (fullUDim ps) V -> (J x U <= J x V)%Qc) -> minimal x U.
Proof using R EQ WN.
  intros SR A O. split; [exact A|]. intros V AV.
  destruct (steps_inside (fullUDim ps) (- DBL_MAX)%Qc DBL_MAX U V SR) as [s [S0 [S1 HS]]].
  assert (AM : E x (mix s V U)).
  { pose proof (E_mix s x x V U AV A) as Q. revert Q. apply E_ext; [intros; unfold mix; ring|reflexivity]. }
  pose proof (O _ AM ltac:(intros i Hi; destruct (HS i Hi s ltac:(qc_lra) (Qcle_refl s)); split; assumption)) as L.
  pose proof (value_convex ps h lk s x x V U WN ltac:(qc_lra) S1) as C.
  rewrite (value_ext ps h lk (mix s x x) x (mix s V U) (mix s V U) R ltac:(intros; unfold mix; ring) (fun _ _ => eq_refl)) in C.
  destruct (Qclt_le_dec (J x V) (J x U)) as [Q|Q]; [exfalso|exact Q].
  pose proof (qc_mul_pos s (J x U - J x V) S0 ltac:(qc_lra)) as Z. replace (s * (J x U - J x V))%Qc with (s * J x U - s * J x V)%Qc in Z by ring.
  replace (s * J x V + (1 - s) * J x U)%Qc with (J x U - (s * J x U - s * J x V))%Qc in C by ring. qc_lra.
Qed.
End Affine.
