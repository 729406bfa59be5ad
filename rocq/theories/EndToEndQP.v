(** EndToEndQP.v -- what the quadratic program built from the registered objects means. *)
From Verif Require Import Base Eigen Spec Preview SpecApi PreviewProofs AutoSpan AutoSpanProofs Constraints ConstraintProofs
  SpecConstraints ConstraintMeaning Checkers Costs SpecCosts CostProofs CostMeaning Properties_Costs Controller Registry SpecController Assembly
  Results SpecProtocol Protocol Properties_Protocol SpecEndToEnd Properties_Registry EndToEnd.

Section Costs.
Variables n m N : nat.
Hypothesis SF : sizes_fit n m N.
Let D := dps n m N.

(** ** Updating the registered costs: exact results *)
Lemma exact_step ps c : ready ps -> same_dims ps D -> k_inited D c -> k_zero D c ->
  forall c', k_update ps c = Some c' -> k_exact ps c' /\ k_same c c' /\ k_inited D c'.
Proof using.
  intros R SD [Sh En] Z c' E. assert (SD' : same_dims D ps) by (apply same_dims_sym; exact SD).
  destruct (k_update_exact ps R c (k_shape_dims _ _ _ SD' Sh) (k_entry_dims _ _ _ SD' En) (k_zero_dims _ _ _ SD' Z)) as [c1 [E1 [S [Sh1 [En1 X]]]]].
  rewrite E in E1. injection E1 as <-. split; [exact X|]. split; [exact S|].
  split; [apply (k_shape_dims ps); assumption|apply (k_entry_dims ps); assumption].
Qed.
Lemma update_costs_exact ps : ready ps -> same_dims ps D -> forall l wk wk', update_costs ps l wk = Some wk' ->
  (forall i, In i l -> k_inited D (wk i)) ->
  forall i, In i l -> (k_acc (wk i) = true -> k_zero D (wk i) /\ cnt i l = 1) -> k_exact ps (wk' i).
Proof using SF.
  intros R SD l wk wk' E KI i Hi Ha.
  cut (forall l wk wk', update_costs ps l wk = Some wk' -> (forall i, In i l -> k_inited D (wk i)) ->
         (k_exact ps (wk i) /\ (k_acc (wk i) = false \/ cnt i l = 0)) \/ (In i l /\ (k_acc (wk i) = true -> k_zero D (wk i) /\ cnt i l = 1)) ->
         k_exact ps (wk' i)).
  { intro G. eapply G; eauto. }
  clear l wk wk' E KI Hi Ha. unfold update_costs. induction l as [|x t IH]; intros wk wk' E KI H; cbn [for_list] in E.
  - injection E as <-. destruct H as [[H _]|[[] _]]. exact H.
  - destruct (k_update ps (wk x)) as [c|] eqn:Ec; [|discriminate]. cbn [obind] in E.
    assert (KI' : forall c0, k_inited D c0 -> forall k, In k t -> k_inited D (upd wk x c0 k)).
    { intros c0 H0 k Hk. unfold upd. destruct (Nat.eqb_spec k x); [exact H0|apply KI; right; exact Hk]. }
    assert (SD' : same_dims D ps) by (apply same_dims_sym; exact SD).
    destruct (k_update_ok ps R (wk x) (k_shape_dims _ _ _ SD' (proj1 (KI x (or_introl eq_refl))))) as [c1 [E1 [K1 [Sh1 _]]]].
    rewrite Ec in E1. injection E1 as <-.
    assert (KC : k_inited D c).
    { split; [apply (k_shape_dims ps); assumption|]. destruct (KI x (or_introl eq_refl)) as [_ En].
      destruct K1 as [K1 [K2 [K3 [K4 [K5 K6]]]]]. unfold k_entry in *. rewrite K1, K2, K3, K4. exact En. }
    apply (IH _ _ E (KI' c KC)). unfold upd. destruct (Nat.eqb_spec i x) as [->|Ne].
    + assert (Ak : k_acc c = k_acc (wk x)) by (unfold k_acc; destruct K1 as [-> [-> _]]; reflexivity).
      assert (CT : cnt x (x :: t) = S (cnt x t)) by (unfold cnt; cbn; destruct (Nat.eq_dec x x); congruence).
      assert (Zx : k_zero D (wk x) -> k_exact ps c).
      { intro Z. apply (exact_step ps (wk x) R SD (KI x (or_introl eq_refl)) Z c Ec). }
      destruct (k_acc (wk x)) eqn:A.
      * destruct H as [[_ [H|H]]|[_ H]]; [discriminate|lia|]. destruct (H eq_refl) as [Z C1]. left. split; [apply Zx, Z|]. right. lia.
      * left. split; [apply Zx; intro Q; congruence|left; exact Ak].
    + assert (CT : cnt i (x :: t) = cnt i t) by (unfold cnt; cbn; destruct (Nat.eq_dec x i); congruence).
      rewrite CT in H. destruct H as [H|[[H|H] H']]; [left; exact H|congruence|right; auto].
Qed.

(** ** Symmetric positive semidefinite costs *)
Definition sym_psd (k : nat) (Q : nat -> nat -> Qc) : Prop :=
  symmetric k Q /\ forall U, (0 <= sum k (fun i => U i * apply k Q U i))%Qc.
Lemma quad_add k Q Q' U : sum k (fun i => U i * apply k (fun a b => Q a b + Q' a b)%Qc U i)%Qc
  = (sum k (fun i => U i * apply k Q U i) + sum k (fun i => U i * apply k Q' U i))%Qc.
Proof.
  rewrite <- sum_add. apply sum_ext. intros i Hi. unfold apply. rewrite <- Qcmult_plus_distr_r, <- sum_add. f_equal. apply sum_ext. intros. ring.
Qed.
Lemma quad_ext k Q Q' U : (forall i j, i < k -> j < k -> Q i j = Q' i j) ->
  sum k (fun i => U i * apply k Q U i)%Qc = sum k (fun i => U i * apply k Q' U i)%Qc.
Proof. intro H. apply sum_ext. intros i Hi. f_equal. unfold apply. apply sum_ext. intros j Hj. rewrite H by assumption. reflexivity. Qed.
Lemma sym_psd_ext k Q Q' : (forall i j, i < k -> j < k -> Q i j = Q' i j) -> sym_psd k Q' -> sym_psd k Q.
Proof.
  intros E [S P]. split; [intros i j Hi Hj; rewrite !E by assumption; apply S; assumption|].
  intro U. rewrite (quad_ext k Q Q' U E). apply P.
Qed.
Lemma sym_psd_add k Q Q' : sym_psd k Q -> sym_psd k Q' -> sym_psd k (fun a b => Q a b + Q' a b)%Qc.
Proof.
  intros [S P] [S' P']. split; [intros i j Hi Hj; rewrite (S i j Hi Hj), (S' i j Hi Hj); reflexivity|].
  intro U. rewrite quad_add. specialize (P U). specialize (P' U).
  replace 0%Qc with (0 + 0)%Qc by ring. apply Qcplus_le_compat; assumption.
Qed.
Lemma sym_psd_0 k : sym_psd k (fun _ _ => 0%Qc).
Proof.
  split; [intros i j _ _; reflexivity|]. intro U. rewrite sum_zero; [apply Qcle_refl|]. intros i _. unfold apply. rewrite sum_zero; [ring|]. intros; ring.
Qed.
Definition kw_pos (c : cost) : Prop := forall r, r < vsize (kw c) -> (0 <= vget (kw c) r)%Qc.
Definition acc_psd (c : cost) : Prop := k_acc c = true -> sym_psd (fullUDim D) (at_ (kQ c)).

Lemma kQf_psd ps c : kR c <= vsize (kw c) -> kw_pos c -> sym_psd (fullUDim D) (kQf ps c).
Proof using.
  intros Le W. split; [intros i j _ _; apply formQ_sym|]. intro U. apply formQ_psd. intros r Hr. apply W. lia.
Qed.
Lemma psd_step ps c c' : ps_live D ps -> isUpdated ps = true -> k_inited D c -> kw_pos c -> acc_psd c -> k_update ps c = Some c' ->
  sym_psd (fullUDim D) (at_ (kQ c')) /\ kw c' = kw c /\ k_inited D c'.
Proof using.
  intros L U KI W A E. destruct (live_update_same n m N ps c c' L U KI E) as [[_ [_ [_ [_ [_ S6]]]]] KI'].
  split; [|split; assumption]. destruct KI as [Sh En]. destruct (live_ready _ _ L U) as [MA [MB [md R]]].
  assert (SD : same_dims D (ps_setModel ps MA MB md)) by (apply same_dims_sym; apply L).
  destruct (k_update_ok _ R c (k_shape_dims _ _ _ SD Sh)) as [c1 [E1 [_ [_ [Rq _]]]]]. rewrite k_update_model, E in E1. injection E1 as <-.
  assert (FU : fullUDim (ps_setModel ps MA MB md) = fullUDim D) by (symmetry; apply SD). rewrite FU in Rq.
  apply (sym_psd_ext _ _ _ Rq). apply sym_psd_add; [|apply kQf_psd; [unfold kR; destruct Sh as [_ [-> _]]; lia|exact W]].
  destruct (k_acc c) eqn:Q; [exact (A Q)|apply sym_psd_0].
Qed.
Lemma update_costs_psd ps : ps_live D ps -> isUpdated ps = true -> forall l wk wk', update_costs ps l wk = Some wk' ->
  (forall i, In i l -> k_inited D (wk i)) -> (forall i, In i l -> kw_pos (wk i)) -> (forall i, In i l -> acc_psd (wk i)) ->
  forall i, In i l -> sym_psd (fullUDim D) (at_ (kQ (wk' i))).
Proof using SF.
  intros L U l wk wk' E KI W A i Hi.
  cut (forall l wk wk', update_costs ps l wk = Some wk' -> (forall i, In i l -> k_inited D (wk i)) -> (forall i, In i l -> kw_pos (wk i)) ->
    (forall i, In i l -> acc_psd (wk i)) -> sym_psd (fullUDim D) (at_ (kQ (wk i))) \/ In i l -> sym_psd (fullUDim D) (at_ (kQ (wk' i)))).
  { intro G. eapply G; eauto. }
  clear l wk wk' E KI W A Hi. unfold update_costs. induction l as [|x t IH]; intros wk wk' E KI W A H; cbn [for_list] in E.
  - injection E as <-. destruct H as [H|[]]. exact H.
  - destruct (k_update ps (wk x)) as [c|] eqn:Ec; [|discriminate]. cbn [obind] in E.
    destruct (psd_step ps _ _ L U (KI x (or_introl eq_refl)) (W x (or_introl eq_refl)) (A x (or_introl eq_refl)) Ec) as [P [Ew KC]].
    apply (IH _ _ E); [intros k Hk|intros k Hk|intros k Hk|]; unfold upd.
    + destruct (Nat.eqb_spec k x); [exact KC|apply KI; right; exact Hk].
    + destruct (Nat.eqb_spec k x); [unfold kw_pos; rewrite Ew; apply W; left; reflexivity|apply W; right; exact Hk].
    + destruct (Nat.eqb_spec k x); [intros _; exact P|apply A; right; exact Hk].
    + destruct (Nat.eqb_spec i x); [left; exact P|]. destruct H as [H|[H|H]]; [auto|congruence|auto].
Qed.

(** ** Nonnegative weights stay nonnegative *)
Lemma spanVector_values {T} jk (v w : vec T) d : spanVector jk v (Z.of_nat d) = Ok w \/ (exists e, spanVector jk v (Z.of_nat d) = Throw e w) ->
  forall i, i < vsize w -> exists k, k < vsize v /\ vget w i = vget v k.
Proof.
  intros H i Hi. destruct (Nat.eq_dec d (vsize v)) as [->|Nd].
  { rewrite spanVector_same in H. destruct H as [H|[? H]]; [|discriminate H]. injection H as <-. eauto. }
  destruct (Nat.eq_dec (vsize v) 0) as [Z|Z].
  { rewrite spanVector_empty in H by lia. destruct H as [H|[? H]]; discriminate H. }
  destruct (Nat.eq_dec (d mod vsize v) 0) as [Md|Md].
  - apply Nat.mod_divide in Md as [q Hq]; [|exact Z]. subst d. assert (Nq : q <> 1) by (intro Q; subst q; lia).
    destruct (spanVector_ok jk v q Z Nq) as [u [Eu [Su Gu]]]. rewrite Eu in H. destruct H as [H|[? H]]; [|discriminate H]. injection H as <-.
    pose proof (Nat.div_mod i (vsize v) Z) as DM. exists (i mod vsize v). pose proof (Nat.mod_upper_bound i (vsize v) Z) as MB. split; [exact MB|].
    rewrite <- (Gu (i / vsize v) (i mod vsize v)); [f_equal; lia| |exact MB]. apply Nat.div_lt_upper_bound; [exact Z|]. lia.
  - rewrite spanVector_throw in H; [|exact Z|lia|].
    + destruct H as [H|[? H]]; [discriminate H|]. injection H as _ <-. eauto.
    + intros [q Hq]. apply Md. apply Nat.mod_divide; [exact Z|]. exists (Z.to_nat q). nia.
Qed.
Lemma span_pos j c c' : kw_pos c -> k_autoSpan j c = Ok c' \/ (exists e, k_autoSpan j c = Throw e c') -> kw_pos c'.
Proof.
  intros W H. cut (kw c' = kw c \/ exists d, spanVector (jvec j 1) (kw c) (Z.of_nat d) = Ok (kw c') \/ exists e, spanVector (jvec j 1) (kw c) (Z.of_nat d) = Throw e (kw c')).
  { intros [Q|[d Q]]; [unfold kw_pos; rewrite Q; exact W|]. intros r Hr. destruct (spanVector_values _ _ _ _ Q r Hr) as [k [Hk ->]]. apply W, Hk. }
  assert (PW : forall M1 N1 d, (span_pw j c M1 N1 (Z.of_nat d) = Ok c' \/ (exists e, span_pw j c M1 N1 (Z.of_nat d) = Throw e c')) ->
    (kw c' = kw c \/ exists d, spanVector (jvec j 1) (kw c) (Z.of_nat d) = Ok (kw c') \/ exists e, spanVector (jvec j 1) (kw c) (Z.of_nat d) = Throw e (kw c'))).
  { intros M1 N1 d Q. unfold span_pw in Q.
    destruct (spanVector (jvec j 0) (kp c) (Z.of_nat d)) as [p|e p|]; [|destruct Q as [Q|[? Q]]; [discriminate Q|]; injection Q; intros; subst; left; reflexivity|destruct Q as [Q|[? Q]]; discriminate Q].
    destruct (spanVector (jvec j 1) (kw c) (Z.of_nat d)) as [u|e u|] eqn:Es; destruct Q as [Q|[? Q]]; try discriminate Q; injection Q; intros; subst c'; right; exists d; cbn; eauto. }
  unfold k_autoSpan, trajC_autoSpan, ctrlC_autoSpan, mixedC_autoSpan in H. cbv zeta in H. unfold zmax in H.
  destruct (kk c); [| | |];
    try (destruct H as [H|[? H]]; [injection H as <-; left; reflexivity|discriminate H]).
  - destruct (spanMatrix (kM c) _ _); [eapply PW; exact H|destruct H as [H|[? H]]; [discriminate H|]; injection H; intros; subst c'; left; reflexivity|destruct H as [H|[? H]]; discriminate H].
  - destruct (spanMatrix (kN c) _ _); [eapply PW; exact H|destruct H as [H|[? H]]; [discriminate H|]; injection H; intros; subst c'; left; reflexivity|destruct H as [H|[? H]]; discriminate H].
  - destruct (spanMatrix (kM c) _ _); [|destruct H as [H|[? H]]; [discriminate H|]; injection H; intros; subst c'; left; reflexivity|destruct H as [H|[? H]]; discriminate H].
    destruct (spanMatrix (kN c) _ _); [eapply PW; exact H|destruct H as [H|[? H]]; [discriminate H|]; injection H; intros; subst c'; left; reflexivity|destruct H as [H|[? H]]; discriminate H].
Qed.
Lemma weights_pos c v c' : kw_pos c -> (forall r, r < vsize v -> (0 <= vget v r)%Qc) ->
  k_weights c v = Ok c' \/ (exists e, k_weights c v = Throw e c') -> kw_pos c'.
Proof.
  intros W V H. destruct (C21_weights c v) as [W1 [W2 [W3 W4]]].
  destruct (Nat.eq_dec (vsize v) (vsize (kw c))) as [Eq|Ne].
  { rewrite (W1 Eq) in H. destruct H as [H|[? H]]; [|discriminate H]. injection H as <-. exact V. }
  destruct (Nat.eq_dec (vsize v) 0) as [Z|Z]; [rewrite W4 in H by congruence; destruct H as [H|[? H]]; discriminate H|].
  destruct (Nat.eq_dec (vsize (kw c) mod vsize v) 0) as [Md|Md].
  - destruct (W2 Ne Z) as [u [Eu [Su Gu]]]; [apply Nat.mod_divide; assumption|]. rewrite Eu in H.
    destruct H as [H|[? H]]; [|discriminate H]. injection H as <-. intros r Hr. cbn in *. rewrite Gu by lia. apply V. apply Nat.mod_upper_bound, Z.
  - rewrite W3 in H; [|exact Z|intro Q; apply Md; apply Nat.mod_divide; assumption]. destruct H as [H|[? H]]; [discriminate H|]. injection H as _ <-. exact W.
Qed.
Lemma new_pos d : kw_pos (new_cost d).
Proof. destruct d; intros r _; cbn; unfold Qcle; cbn; discriminate. Qed.

Lemma pos_inv_holds h w : follows_protocol n m N world0 h -> reached h w -> nonneg_weights h ->
  (forall i, kw_pos (wcost w i)) /\ (forall i, In i (spCost (ctl w)) -> acc_psd (wcost w i)).
Proof using SF.
  intros F R. refine (proj1 (protocol_ind n m N SF (fun h w => nonneg_weights h -> (forall i, kw_pos (wcost w i)) /\ (forall i, In i (spCost (ctl w)) -> acc_psd (wcost w i))) _ _ h w F R)); clear h w F R.
  - intros _. split; [intro i; apply new_pos with (d := DTrajC (mzero 0 0) (vconst 0 0%Qc))|intros i []].
  - intros h w o w' R F P L S IH [NW1 NW2].
    assert (NWh : nonneg_weights h) by (split; [intros i x H; apply (NW1 i x)|intros i v H; apply (NW2 i v)]; apply in_app_iff; auto).
    destruct (IH NWh) as [IW IA0]. clear IH. destruct (step_objs _ _ _ S) as [_ [HC [_ [_ HS]]]].
    split.
    + intro i. destruct (HC i) as [E NW NX NA|d0 -> E1 E2|j -> Hs|v -> Hw|x -> Hw|j p -> Ep Hin|e p ps wk -> Ep Eu Ek E].
      * rewrite E. apply IW.
      * rewrite E2. apply new_pos.
      * eapply span_pos; [apply IW|exact Hs].
      * eapply weights_pos; [apply IW|apply (NW2 i v); apply in_app_iff; right; left; reflexivity|exact Hw].
      * rewrite Hw. intros r _. cbn. apply (NW1 i x). apply in_app_iff. right. left. reflexivity.
      * destruct (pi_m _ _ P p Ep) as [Np _]. destruct (pi_ps _ _ P p Np) as [SD _]. rewrite (initC_dims j _ _ _ SD) in Hin.
        destruct (init_keepsC n m N j _ _ Hin) as [_ G2]. unfold kw_pos. rewrite G2. apply IW.
      * destruct (pi_m _ _ P p Ep) as [Np _]. destruct (ensure_live D _ (pi_ps _ _ P p Np)) as [ps' [Eu' [Lp [_ Up]]]].
        rewrite Eu in Eu'. injection Eu' as <-. pose proof (update_costs_same n m N ps Lp Up _ _ _ Ek (pi_rcost _ _ P) i) as [S1 [_ [S3 [S4 [S5 S6]]]]].
        rewrite E. unfold kw_pos. rewrite S6. apply IW.
    + intros i Hi. destruct (HS i Hi) as [Hi'|[j [p [-> [Ep Ei]]]]].
      2:{ destruct (pi_m _ _ P p Ep) as [Np _]. destruct (pi_ps _ _ P p Np) as [SD _]. rewrite (initC_dims j _ _ _ SD) in Ei.
          intro A. destruct (init_zero n m N j _ _ Ei A) as [Z _]. apply (sym_psd_ext _ _ _ Z), sym_psd_0. }
      pose proof (pi_rcost _ _ P i Hi') as KI. pose proof (IA0 i Hi') as IA.
      destruct (HC i) as [E NW NX NA|d0 -> E1 E2|j -> Hs|v -> Hw|x -> Hw|j p -> Ep Hin|e p ps wk -> Ep Eu Ek E].
      * rewrite E. exact IA.
      * exfalso. pose proof (ri_cost _ (pi_reg _ _ P) i Hi') as Lt. lia.
      * rewrite (inited_span j D _ KI) in Hs. destruct Hs as [Hs|[? Hs]]; [|discriminate Hs]. injection Hs as <-. exact IA.
      * destruct (C21_only_weights_change (wcost w i) v (wcost w' i)) as [_ [K1 [K2 [K3 [K4 [K5 [K6 _]]]]]]].
        { eexists. split; [reflexivity|]. destruct Hw as [Hw|[e Hw]]; rewrite Hw; eauto. }
        unfold acc_psd, k_acc in *. rewrite K4, K5, K6. exact IA.
      * rewrite Hw. exact IA.
      * destruct (pi_m _ _ P p Ep) as [Np _]. destruct (pi_ps _ _ P p Np) as [SD _]. rewrite (initC_dims j _ _ _ SD) in Hin.
        destruct (inited_initC j D _ KI) as [c [Ec _]]. fold D in Hin. destruct Hin as [Hin|[? Hin]]; [|congruence].
        intro A. destruct (init_zero n m N j _ _ Hin A) as [Z _]. apply (sym_psd_ext _ _ _ Z), sym_psd_0.
      * destruct (pi_m _ _ P p Ep) as [Np _]. destruct (ensure_live D _ (pi_ps _ _ P p Np)) as [ps' [Eu' [Lp [_ Up]]]].
        rewrite Eu in Eu'. injection Eu' as <-. rewrite E. intros _.
        eapply (update_costs_psd ps Lp Up _ _ _ Ek (pi_rcost _ _ P)); [intros; apply IW|exact IA0|exact Hi'].
Qed.
End Costs.
