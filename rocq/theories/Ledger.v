(** Ledger.v -- the accumulated matrices of a cost are the sums over its updates (proofs for C63). *)
From Verif Require Import Base Eigen Spec Preview SpecApi PreviewProofs AutoSpan AutoSpanProofs Constraints ConstraintProofs
  SpecConstraints ConstraintMeaning Checkers Costs SpecCosts CostProofs CostMeaning Properties_Costs Controller Registry SpecController Assembly
  Results SpecProtocol Protocol Properties_Protocol SpecEndToEnd SpanData Properties_Registry
  EndToEnd EndToEndQP EndToEndRows EndToEndMain Determined Properties_Assembly Properties_Problem StateExt InitialState SpecLedger.

Lemma over_app {A} (a b : list A) f : over (a ++ b) f = (over a f + over b f)%Qc.
Proof. induction a as [|x a IH]; cbn [over app]; [ring|]. rewrite IH. ring. Qed.
Lemma over_ext {A} (l : list A) f g : (forall a, In a l -> f a = g a) -> over l f = over l g.
Proof.
  induction l as [|x l IH]; intro H; cbn [over]; [reflexivity|]. rewrite (H x) by (left; reflexivity).
  rewrite IH; [reflexivity|]. intros; apply H; right; assumption.
Qed.
Lemma over_sub {A} (l : list A) f g : over l (fun a => f a - g a)%Qc = (over l f - over l g)%Qc.
Proof. induction l as [|x l IH]; cbn [over]; [ring|]. rewrite IH. ring. Qed.
Lemma over_one {A} (a : A) f : over [a] f = f a.
Proof. cbn [over]. ring. Qed.

(** ** The matrices *)
Definition eQ (c : cost) (L : list entry) (i j : nat) : Qc := over L (fun a => kQf (snd a) (set_w c (fst a)) i j).
Definition eE (c : cost) (L : list entry) (i j : nat) : Qc := over L (fun a => kEf (snd a) (set_w c (fst a)) i j).
Definition ef (c : cost) (L : list entry) (j : nat) : Qc := over L (fun a => kff (snd a) (set_w c (fst a)) j).
Definition elin (n : nat) (c : cost) (L : list entry) (x : nat -> Qc) (j : nat) : Qc :=
  (sum n (fun i => eE c L i j * x i) + ef c L j)%Qc.
Fixpoint ec (n : nat) (c : cost) (P L : list entry) (j : nat) : Qc :=
  match L with
  | [] => 0%Qc
  | a :: t => (elin n c (P ++ [a]) (vget (x0 (snd a))) j + ec n c (P ++ [a]) t j)%Qc
  end.
Lemma ec_snoc n c L : forall P a j, ec n c P (L ++ [a]) j = (ec n c P L j + elin n c (P ++ L ++ [a]) (vget (x0 (snd a))) j)%Qc.
Proof.
  induction L as [|b t IH]; intros P a j; cbn [ec app].
  - ring.
  - rewrite IH, <- app_assoc. cbn [app]. ring.
Qed.

Definition k_led (D : psys) (c : cost) (L : list entry) : Prop :=
  cost_history D (vsize (kp c)) L /\
  (k_acc c = true ->
    (forall i j, i < fullUDim D -> j < fullUDim D -> at_ (kQ c) i j = eQ c L i j) /\
    (forall i j, i < xDim D -> j < fullUDim D -> at_ (kE c) i j = eE c L i j) /\
    (forall j, j < fullUDim D -> vget (kf c) j = ef c L j) /\
    (k_acc_c c = true -> forall j, j < fullUDim D -> vget (kc c) j = ec (xDim D) c [] L j)).

Lemma led_zero D c : k_zero D c -> k_led D c [].
Proof.
  intro Z. split; [constructor|]. intro A. destruct (Z A) as [Z1 [Z2 [Z3 Z4]]]. unfold eQ, eE, ef. cbn [over ec]. auto.
Qed.
(** the matrices of an update depend on the data and weights only *)
Lemma forms_data ps c c' w : k_same_data c c' ->
  kQf ps (set_w c' w) = kQf ps (set_w c w) /\ kEf ps (set_w c' w) = kEf ps (set_w c w) /\ kff ps (set_w c' w) = kff ps (set_w c w).
Proof.
  intros [H1 [H2 [H3 [H4 H5]]]]. unfold kQf, kEf, kff, kK, kR, kT, kH, kG. cbn [set_w set_data kk kfull kM kN kp kw].
  rewrite H1, H2, H3, H4, H5. auto.
Qed.
Lemma led_data c c' : k_same_data c c' -> forall L, (forall i j, eQ c' L i j = eQ c L i j) /\ (forall i j, eE c' L i j = eE c L i j) /\ (forall j, ef c' L j = ef c L j).
Proof.
  intros H L. unfold eQ, eE, ef. repeat split; intros; apply over_ext; intros a _; destruct (forms_data (snd a) c c' (fst a) H) as [E1 [E2 E3]]; rewrite ?E1, ?E2, ?E3; reflexivity.
Qed.
Lemma elin_data n c c' : k_same_data c c' -> forall L x j, elin n c' L x j = elin n c L x j.
Proof.
  intros H L x j. unfold elin. destruct (led_data c c' H L) as [_ [E F]]. rewrite F. f_equal. apply sum_ext. intros i _. rewrite E. reflexivity.
Qed.
Lemma ec_data n c c' : k_same_data c c' -> forall L P j, ec n c' P L j = ec n c P L j.
Proof. intros H. induction L as [|a t IH]; intros P j; cbn [ec]; [reflexivity|]. rewrite IH, (elin_data n c c' H). reflexivity. Qed.
Lemma led_same D c c' L : k_same_data c c' -> kQ c' = kQ c -> kE c' = kE c -> kf c' = kf c -> kc c' = kc c -> k_led D c L -> k_led D c' L.
Proof.
  intros H E1 E2 E3 E4 [A B]. pose proof H as [H1 [H2 [H3 [H4 H5]]]]. unfold k_led. rewrite E1, E2, E3, E4, H5.
  replace (k_acc c') with (k_acc c) by (unfold k_acc; rewrite H1, H2; reflexivity).
  replace (k_acc_c c') with (k_acc_c c) by (unfold k_acc_c; rewrite H1, H2; reflexivity).
  split; [exact A|]. intro K. destruct (B K) as [B1 [B2 [B3 B4]]]. destruct (led_data c c' H L) as [X1 [X2 X3]].
  split; [intros; rewrite X1; apply B1; assumption|]. split; [intros; rewrite X2; apply B2; assumption|].
  split; [intros; rewrite X3; apply B3; assumption|]. intros Kc j Hj. rewrite (ec_data _ c c' H). apply B4; assumption.
Qed.
(** same weights on the rows *)
Lemma forms_w ps c v : (forall r, r < vsize (kp c) -> vget v r = vget (kw c) r) ->
  (forall i j, kQf ps (set_w c v) i j = kQf ps c i j) /\ (forall i j, kEf ps (set_w c v) i j = kEf ps c i j) /\ (forall j, kff ps (set_w c v) j = kff ps c j).
Proof.
  intro H. unfold kQf, kEf, kff, formQ, formE, formf. cbn [set_w set_data kw].
  change (kK ps (set_w c v)) with (kK ps c). change (kR (set_w c v)) with (kR c). change (kT ps (set_w c v)) with (kT ps c).
  change (kH ps (set_w c v)) with (kH ps c). change (kG ps (set_w c v)) with (kG ps c).
  repeat split; intros; apply sum_ext; intros k _; apply sum_ext; intros r Hr; rewrite (H r Hr); reflexivity.
Qed.

Lemma led_update D ps c c' L v : ready ps -> same_dims ps D -> k_inited D c -> k_led D c L -> k_update ps c = Some c' ->
  vsize v = vsize (kp c) -> (forall r, r < vsize (kp c) -> vget v r = vget (kw c) r) ->
  k_led D c' (L ++ [(v, ps)]) /\ k_same c c' /\ k_inited D c'.
Proof.
  intros R SD [Sh En] [LH LK] E Vs Vw. assert (SD' : same_dims D ps) by (apply same_dims_sym; exact SD).
  destruct (k_update_ok ps R c (k_shape_dims _ _ _ SD' Sh)) as [c1 [E1 [S [Sh1 [RQ [RE [RF RC]]]]]]]. rewrite E in E1. injection E1 as <-.
  assert (DX : xDim ps = xDim D) by apply SD. assert (DU : fullUDim ps = fullUDim D) by apply SD. rewrite DX, DU in *.
  pose proof S as [H1 [H2 [H3 [H4 [H5 H6]]]]].
  assert (SDt : k_same_data c c') by (repeat split; assumption).
  destruct (forms_w ps c v Vw) as [W1 [W2 W3]].
  destruct (led_data c c' SDt (L ++ [(v, ps)])) as [X1 [X2 X3]].
  split; [|split; [exact S|]].
  - split.
    + rewrite H5. apply Forall_app. split; [exact LH|]. constructor; [|constructor]. cbn. auto.
    + replace (k_acc c') with (k_acc c) by (unfold k_acc; rewrite H1, H2; reflexivity).
      replace (k_acc_c c') with (k_acc_c c) by (unfold k_acc_c; rewrite H1, H2; reflexivity).
      intro A. destruct (LK A) as [B1 [B2 [B3 B4]]]. rewrite A in RQ, RE, RF.
      assert (NE : forall i j, i < xDim D -> j < fullUDim D -> at_ (kE c') i j = eE c' (L ++ [(v, ps)]) i j).
      { intros i j Hi Hj. rewrite X2, RE, B2 by assumption. unfold eE. rewrite over_app, over_one. cbn [fst snd]. rewrite W2. reflexivity. }
      assert (NF : forall j, j < fullUDim D -> vget (kf c') j = ef c' (L ++ [(v, ps)]) j).
      { intros j Hj. rewrite X3, RF, B3 by assumption. unfold ef. rewrite over_app, over_one. cbn [fst snd]. rewrite W3. reflexivity. }
      split; [|split; [exact NE|split; [exact NF|]]].
      * intros i j Hi Hj. rewrite X1, RQ, B1 by assumption. unfold eQ. rewrite over_app, over_one. cbn [fst snd]. rewrite W1. reflexivity.
      * intros Ac j Hj. rewrite RC by assumption. rewrite Ac, (B4 Ac j Hj), ec_snoc. cbn [app snd].
        rewrite (ec_data _ c c' SDt). unfold elin. rewrite (NF j Hj). do 2 f_equal. apply sum_ext. intros i Hi. rewrite NE by assumption. reflexivity.
  - split; [apply (k_shape_dims ps); assumption|]. unfold k_entry in *. rewrite H1, H2, H3, H4. exact En.
Qed.

Lemma cnt_cons i x t : cnt i (x :: t) = if Nat.eqb x i then S (cnt i t) else cnt i t.
Proof. unfold cnt. cbn. destruct (Nat.eq_dec x i) as [->|E]; [rewrite Nat.eqb_refl; reflexivity|]. rewrite (proj2 (Nat.eqb_neq x i) E). reflexivity. Qed.

Lemma led_updates D ps i v : ready ps -> same_dims ps D -> forall l wk wk' L, update_costs ps l wk = Some wk' ->
  (forall k, In k l -> k_inited D (wk k)) -> k_led D (wk i) L -> 
  vsize v = vsize (kp (wk i)) -> (forall r, r < vsize (kp (wk i)) -> vget v r = vget (kw (wk i)) r) ->
  k_led D (wk' i) (L ++ repeat (v, ps) (cnt i l)) /\ k_same (wk i) (wk' i).
Proof.
  intros R SD. unfold update_costs. induction l as [|x t IH]; intros wk wk' L E KI Le Vs Vw; cbn [for_list] in E.
  - injection E as <-. cbn [cnt count_occ repeat]. rewrite app_nil_r. split; [exact Le|repeat split].
  - destruct (k_update ps (wk x)) as [c|] eqn:Ec; [|discriminate]. cbn [obind] in E. rewrite cnt_cons.
    assert (KC : k_inited D c).
    { pose proof (KI x (or_introl eq_refl)) as [Sh En]. assert (SD' : same_dims D ps) by (apply same_dims_sym; exact SD).
      destruct (k_update_ok ps R (wk x) (k_shape_dims _ _ _ SD' Sh)) as [c1 [E1 [[H1 [H2 [H3 [H4 [H5 H6]]]]] [Sh1 _]]]].
      rewrite Ec in E1. injection E1 as <-. split; [apply (k_shape_dims ps); assumption|]. unfold k_entry in *. rewrite H1, H2, H3, H4. exact En. }
    assert (KI' : forall k, In k t -> k_inited D (upd wk x c k)).
    { intros k Hk. unfold upd. destruct (Nat.eqb_spec k x) as [->|]; [exact KC|apply KI; right; exact Hk]. }
    destruct (Nat.eqb_spec x i) as [->|Ne].
    + destruct (led_update D ps (wk i) c L v R SD (KI i (or_introl eq_refl)) Le Ec Vs Vw) as [L1 [S1 _]].
      assert (Eu : upd wk i c i = c) by (unfold upd; rewrite Nat.eqb_refl; reflexivity).
      pose proof S1 as [H1 [H2 [H3 [H4 [H5 H6]]]]].
      destruct (IH _ _ (L ++ [(v, ps)]) E KI') as [L2 S2].
      * rewrite Eu. exact L1.
      * rewrite Eu, H5. exact Vs.
      * rewrite Eu, H5, H6. exact Vw.
      * rewrite Eu in S2. cbn [repeat]. rewrite <- app_assoc in L2. split; [exact L2|eapply k_same_trans; eassumption].
    + assert (Eu : upd wk x c i = wk i) by (unfold upd; rewrite (proj2 (Nat.eqb_neq i x)) by auto; reflexivity).
      destruct (IH _ _ L E KI') as [L2 S2]; try (rewrite Eu; assumption). rewrite Eu in S2. split; [exact L2|exact S2].
Qed.

(** ** Along a history *)
Lemma ledger_snoc i o w2 : forall h w w1 past l, run w h = Some w1 -> stepped w1 o w2 ->
  ledger w past i l (h ++ [o]) = ledger_op (past ++ h) w1 w2 i o (ledger w past i l h).
Proof.
  induction h as [|x t IH]; intros w w1 past l R S; cbn [app run ledger] in *.
  - injection R as <-. rewrite app_nil_r. destruct S as [-> | [y ->]]; reflexivity.
  - destruct (step w x) as [v|y v|] eqn:Ex; [| |discriminate R]; rewrite (IH _ _ _ _ R S), <- app_assoc; reflexivity.
Qed.
Lemma updates_snoc h w o w' i : reached h w -> stepped w o w' -> updates_of (h ++ [o]) i = ledger_op h w w' i o (updates_of h i).
Proof. intros R S. unfold updates_of. rewrite (ledger_snoc i o w' h world0 w [] [] R S). reflexivity. Qed.
Lemma honest_prefix o : forall h w, honest w (h ++ [o]) -> honest w h.
Proof.
  induction h as [|x t IH]; intros w H; cbn [app honest] in *; [exact I|]. destruct H as [H1 H2]. split; [exact H1|].
  destruct (step w x); auto.
Qed.

Section Trace.
Variables n m N : nat.
Hypothesis SF : sizes_fit n m N.
Let D := dps n m N.

Lemma led_inv h w : follows_protocol n m N world0 h -> reached h w -> callable world0 h -> honest world0 h ->
  forall i, In i (spCost (ctl w)) -> k_led D (wcost w i) (updates_of h i).
Proof using SF.
  intros F R. refine (proj1 (protocol_ind n m N SF (fun h w => callable world0 h -> honest world0 h -> forall i, In i (spCost (ctl w)) -> k_led D (wcost w i) (updates_of h i)) _ _ h w F R)); clear h w F R.
  - intros _ _ i [].
  - intros h w o w' R F P L S IH C HO i Hi. destruct (step_objs _ _ _ S) as [_ [HC [_ [_ HS]]]].
    destruct (callable_snoc o h world0 w C R) as [Ch Co]. pose proof (honest_prefix o h world0 HO) as HOh.
    rewrite (updates_snoc h w o w' i R S).
    assert (ADD : forall j p, o = OAddCost j i -> m_ps (ctl w) = Some p -> initializeCost j (wps w p) (wcost w i) = Ok (wcost w' i) ->
       k_led D (wcost w' i) (ledger_op h w w' i o (updates_of h i))).
    { intros j p -> Ep Ei. cbn [ledger_op]. rewrite Nat.eqb_refl. apply led_zero.
      destruct (pi_m _ _ P p Ep) as [Np _]. destruct (pi_ps _ _ P p Np) as [SD _]. rewrite (initC_dims j _ _ _ SD) in Ei. eapply init_zero; exact Ei. }
    destruct (HS i Hi) as [Hi'|[j [p [Eo [Ep Ei]]]]]; [|exact (ADD j p Eo Ep Ei)].
    pose proof (pi_rcost _ _ P i Hi') as KI. pose proof (IH Ch HOh i Hi') as LI.
    assert (CS : (exists e, o = OSolve e) \/ ((forall e, o <> OSolve e) /\ ((forall j, o <> OAddCost j i) -> ledger_op h w w' i o (updates_of h i) = updates_of h i))).
    { destruct o; try (right; split; [discriminate|reflexivity]); [|left; eauto].
      right. split; [discriminate|]. intro NA. cbn [ledger_op].
      match goal with |- (if Nat.eqb ?k i then _ else _) = _ => destruct (Nat.eqb_spec k i) as [->|Ne]; [exfalso; eapply NA; reflexivity|reflexivity] end. }
    destruct CS as [[e ->]|[NSo LE]].
    + assert (Q : exists b, solve e w = Some (b, w')).
      { unfold stepped in S. cbn [step] in S. destruct (solve e w) as [[b v]|]; cbn in S; [|destruct S as [S|[? S]]; discriminate S].
        exists b. destruct S as [S|[? S]]; [|discriminate S]. injection S as <-. reflexivity. }
      destruct Q as [b So]. destruct (solve_objs _ _ _ _ So) as [p [ps [wc [wk [Ep [Eu [_ [Ek [Hw [_ [Hk _]]]]]]]]]]].
      destruct (sv_ps n m N SF h w p e b w' F R HOh Ep So) as [RD [SD [_ [_ [_ [_ [_ [_ Ek']]]]]]]].
      cbn [ledger_op]. rewrite Ep.
      pose proof (ri_cost _ (pi_reg _ _ P) i Hi') as Lt. destruct (cost_inv_holds n m N SF h w F R) as [CL CI]. rewrite <- CL in Lt. apply nth_error_Some in Lt.
      assert (exists d, cost_data_of h i = Some d) as [d Ed] by (unfold cost_data_of; destruct (nth_error (new_costs h) i); [eauto|congruence]).
      destruct (CI Ch i d Ed) as [_ [V1 V2]].
      assert (Wk : vsize (kw (wcost w i)) = vsize (kp (wcost w i))) by apply KI.
      refine (proj1 (led_updates D (wps w' p) i (weights_of h i) RD SD _ _ _ (updates_of h i) Ek' (pi_rcost _ _ P) LI _ _)).
      * congruence.
      * intros r Hr. symmetry. apply V2. congruence.
    + destruct (HC i) as [E NW NX NA|d0 -> E1 E2|j -> Hs|v -> Hw|x -> Hw|j p -> Ep Hin|e p ps wk -> Ep Eu Ek E].
      * rewrite LE; [rewrite E; exact LI|]. intros j ->. exact (NA j eq_refl Co).
      * exfalso. pose proof (ri_cost _ (pi_reg _ _ P) i Hi') as Lt. lia.
      * rewrite (inited_span j D _ KI) in Hs. destruct Hs as [Hs|[? Hs]]; [|discriminate Hs]. injection Hs as <-. exact LI.
      * rewrite LE by discriminate.
        destruct (C21_only_weights_change (wcost w i) v (wcost w' i)) as [_ [K1 [K2 [K3 [K4 [K5 [K6 [K7 [K8 K9]]]]]]]]].
        { eexists. split; [reflexivity|]. destruct Hw as [Hw|[e Hw]]; rewrite Hw; eauto. }
        apply (led_same D (wcost w i)); try assumption. repeat split; assumption.
      * rewrite LE by discriminate. rewrite Hw. apply (led_same D (wcost w i)); try reflexivity; [repeat split|exact LI].
      * destruct (pi_m _ _ P p Ep) as [Np _]. destruct (pi_ps _ _ P p Np) as [SD _]. pose proof Hin as Hin0. rewrite (initC_dims j _ _ _ SD) in Hin.
        destruct (inited_initC j D _ KI) as [c [Ec _]]. destruct Hin as [Hin|[y Hin]]; [|pose proof (eq_trans (eq_sym Ec) Hin) as Q; discriminate Q].
        apply (ADD j p eq_refl Ep). rewrite (initC_dims j _ _ _ SD). exact Hin.
      * exfalso. exact (NSo e eq_refl).
Qed.
End Trace.

(** ** Values *)
Lemma form_value_x ps (R : ready ps) c x U : k_dims ps c -> k_entry ps c ->
  objective (fullUDim ps) (kQf ps c) (fun j => sum (xDim ps) (fun i => kEf ps c i j * x i) + kff ps c j)%Qc U
  = (doc_cost ps c x U - doc_cost ps c x (fun _ => 0))%Qc.
Proof.
  intros K E. rewrite !(doc_cost_form ps R c) by assumption. unfold k_res. rewrite <- !form_value.
  rewrite objective_0. unfold formc, kQf, kEf, kff. ring.
Qed.
Lemma objective_add n Q c Q' c' U : objective n (fun i j => Q i j + Q' i j)%Qc (fun j => c j + c' j)%Qc U = (objective n Q c U + objective n Q' c' U)%Qc.
Proof.
  unfold objective. rewrite quad_add. rewrite (sum_ext n (fun i => (c i + c' i) * U i)%Qc (fun i => c i * U i + c' i * U i)%Qc) by (intros; ring).
  rewrite sum_add. ring.
Qed.
Lemma objective_lin n Q c c' U : objective n Q (fun j => c j + c' j)%Qc U = (objective n Q c U + sum n (fun j => c' j * U j))%Qc.
Proof.
  unfold objective. rewrite (sum_ext n (fun i => (c i + c' i) * U i)%Qc (fun i => c i * U i + c' i * U i)%Qc) by (intros; ring).
  rewrite sum_add. ring.
Qed.
Lemma objective_odd n Q c U : (half * (objective n Q c U - objective n Q c (fun i => - U i)))%Qc = sum n (fun j => c j * U j)%Qc.
Proof.
  unfold objective. rewrite (sum_ext n (fun i => - U i * apply n Q (fun i0 => - U i0) i)%Qc (fun i => U i * apply n Q U i)%Qc).
  - rewrite (sum_ext n (fun i => c i * - U i)%Qc (fun i => (-(1)) * (c i * U i))%Qc) by (intros; ring). rewrite sum_scal_l.
    set (a := sum n (fun i => U i * apply n Q U i)%Qc). set (b := sum n (fun j => c j * U j)%Qc).
    transitivity (half * b + half * b)%Qc; [ring|apply half_double].
  - intros i Hi. unfold apply. rewrite (sum_ext n (fun j => Q i j * - U j)%Qc (fun j => (-(1)) * (Q i j * U j))%Qc) by (intros; ring). rewrite sum_scal_l. ring.
Qed.

Definition rdoc (c : cost) (L : list entry) (x U : nat -> Qc) : Qc := over L (fun a => doc_cost (snd a) (set_w c (fst a)) x U).
Fixpoint ddoc (c : cost) (P L : list entry) (U : nat -> Qc) : Qc :=
  match L with [] => 0%Qc | a :: t => (linear_part (rdoc c (P ++ [a]) (vget (x0 (snd a)))) U + ddoc c (P ++ [a]) t U)%Qc end.

Section Values.
Variables (D : psys) (c : cost).
Hypotheses (KD : k_dims D c) (KE : k_entry D c).
Notation Hist := (cost_history D (vsize (kp c))).

Lemma led_objective x U L : Hist L ->
  objective (fullUDim D) (eQ c L) (elin (xDim D) c L x) U = (rdoc c L x U - rdoc c L x (fun _ => 0))%Qc.
Proof using KD KE.
  intro H. unfold rdoc. rewrite <- over_sub. induction L as [|a t IH]; cbn [over].
  - transitivity (objective (fullUDim D) (fun _ _ => 0%Qc) (fun _ => 0%Qc) U).
    + apply objective_ext; [reflexivity|]. intros j _. unfold elin, eE, ef. cbn [over]. rewrite sum_zero; [ring|intros; ring].
    + unfold objective. rewrite sum_zero; [rewrite sum_zero; [ring|intros; ring]|]. intros i _. unfold apply. rewrite sum_zero; [ring|intros; ring].
  - inversion H as [|? ? [Hw [R SD]] Ht]; subst. rewrite <- (IH Ht).
    assert (SD' : same_dims D (snd a)) by (apply same_dims_sym; exact SD).
    assert (DX : xDim (snd a) = xDim D) by apply SD. assert (DU : fullUDim (snd a) = fullUDim D) by apply SD.
    rewrite <- (form_value_x (snd a) R (set_w c (fst a)) x U).
    + rewrite DX, DU, <- objective_add. apply objective_ext.
      * intros i j _ _. reflexivity.
      * intros j _. unfold elin.
        change (ef c (a :: t) j) with (kff (snd a) (set_w c (fst a)) j + ef c t j)%Qc.
        transitivity ((sum (xDim D) (fun i => kEf (snd a) (set_w c (fst a)) i j * x i) + sum (xDim D) (fun i => eE c t i j * x i)) + (kff (snd a) (set_w c (fst a)) j + ef c t j))%Qc; [|ring].
        f_equal. rewrite <- sum_add. apply sum_ext. intros i _.
        change (eE c (a :: t) i j) with (kEf (snd a) (set_w c (fst a)) i j + eE c t i j)%Qc. ring.
    + destruct SD' as [E1 [E2 [E3 [E4 [E5 E6]]]]]. unfold k_dims in *. cbn. rewrite <- E1, <- E2, <- E5, <- E6. exact KD.
    + apply (k_entry_dims D); [exact SD'|]. exact KE.
Qed.
Lemma led_linear x U L : Hist L -> linear_part (rdoc c L x) U = sum (fullUDim D) (fun j => elin (xDim D) c L x j * U j)%Qc.
Proof using KD KE.
  intro H. unfold linear_part. rewrite <- (objective_odd (fullUDim D) (eQ c L)). rewrite !(led_objective x _ L H). f_equal. ring.
Qed.
Lemma led_drift U L : forall P, Hist (P ++ L) -> ddoc c P L U = sum (fullUDim D) (fun j => ec (xDim D) c P L j * U j)%Qc.
Proof using KD KE.
  induction L as [|a t IH]; intros P H; cbn [ddoc ec].
  - rewrite sum_zero; [reflexivity|intros; ring].
  - assert (H' : Hist ((P ++ [a]) ++ t)) by (rewrite <- app_assoc; exact H).
    assert (HP : Hist (P ++ [a])) by (apply Forall_app in H' as [A _]; exact A).
    eapply eq_trans; [apply (f_equal2 Qcplus); [apply led_linear; exact HP|apply IH; exact H']|].
    rewrite <- sum_add. apply sum_ext. intros; ring.
Qed.
End Values.

(** in terms of the data the user gave *)
Lemma running_doc D c d L x U : cost_fits D (k_given c) -> cost_alike (k_given c) d -> cost_history D (vsize (kp c)) L ->
  vsize (kp c) = cost_rows (k_given c) -> rdoc c L x U = running d L x U.
Proof.
  intros Fi A H Kr. unfold rdoc, running. apply over_ext. intros a Ia. unfold cost_history in H. rewrite Forall_forall in H. destruct (H a Ia) as [Hw [_ SD]].
  rewrite given_value. change (k_given (set_w c (fst a))) with (k_given c). change (kw (set_w c (fst a))) with (fst a).
  apply cost_value_alike; [exact A|apply (fits_dims D); [apply same_dims_sym; exact SD|exact Fi]|congruence|split; reflexivity].
Qed.
Lemma drift_doc D c d U L : forall P, cost_fits D (k_given c) -> cost_alike (k_given c) d -> cost_history D (vsize (kp c)) (P ++ L) ->
  vsize (kp c) = cost_rows (k_given c) -> ddoc c P L U = drift d P L U.
Proof.
  induction L as [|a t IH]; intros P Fi A H Kr; cbn [ddoc drift]; [reflexivity|].
  assert (H' : cost_history D (vsize (kp c)) ((P ++ [a]) ++ t)) by (rewrite <- app_assoc; exact H).
  assert (HP : cost_history D (vsize (kp c)) (P ++ [a])) by (apply Forall_app in H' as [A' _]; exact A').
  apply (f_equal2 Qcplus); [|apply IH; assumption]. unfold linear_part.
  apply (f_equal2 Qcmult); [reflexivity|]. apply (f_equal2 Qcminus); apply (running_doc D c d _ _ _ Fi A HP Kr).
Qed.

(** ** The solve that follows a history *)
Lemma repeat_last {A} (a : A) k : repeat a (S k) = repeat a k ++ [a].
Proof. induction k as [|k IH]; [reflexivity|]. cbn [repeat app] in *. rewrite <- IH. reflexivity. Qed.

Section Solve.
Variables (n m N : nat) (h : list op) (w : world) (p : nat) (e : senv) (b : bool) (w' : world).
Hypothesis S : solved n m N h w p e b w'.
Hypothesis CA : callable world0 h.
Notation D := (dps n m N).
Notation ps := (wps w' p).
Notation L' i := (updates_of (h ++ [OSolve e]) i).

Lemma led_stepped : stepped w (OSolve e) w'.
Proof using S. left. cbn [step]. rewrite (sd_So _ _ _ _ _ _ _ _ _ S). reflexivity. Qed.

Lemma led_solve i : In i (spCost (ctl w)) ->
  k_led D (wcost w' i) (L' i) /\ exists Lp, L' i = Lp ++ [(weights_of h i, ps)].
Proof using S CA.
  intro Hi. pose proof (sd_pinv _ _ _ _ _ _ _ _ _ S) as P. destruct (sd_ps _ _ _ _ _ _ _ _ _ S) as [R [SD [_ [_ [_ [_ [_ [_ Ek]]]]]]]].
  destruct S as [SF FP RE HO Ep So].
  rewrite (updates_snoc h w (OSolve e) w' i RE led_stepped). cbn [ledger_op]. rewrite Ep.
  destruct (sv_cost_data n m N SF h w p e b w' FP RE HO Ep So i CA Hi) as [d [Ed [G1 [[G2 G3] [KI [Fi Wr]]]]]].
  pose proof (led_inv n m N SF h w FP RE CA HO i Hi) as LI.
  assert (Wk : vsize (kw (wcost w i)) = vsize (kp (wcost w i))) by apply KI.
  split.
  - refine (proj1 (led_updates D ps i (weights_of h i) R SD _ _ _ (updates_of h i) Ek (pi_rcost _ _ P) LI _ _)); [congruence|].
    intros r Hr. symmetry. apply G3. congruence.
  - assert (C : 0 < cnt i (spCost (ctl w))) by (apply count_occ_In; exact Hi).
    destruct (cnt i (spCost (ctl w))) as [|k]; [lia|]. rewrite repeat_last, app_assoc. eexists. reflexivity.
Qed.

Lemma led_acc i d : In i (spCost (ctl w)) -> cost_data_of h i = Some d -> k_acc (wcost w' i) = per_step ps d.
Proof using S CA.
  intros Hi Ed. destruct (sd_ps _ _ _ _ _ _ _ _ _ S) as [R [SD _]]. destruct (sd_kshape _ _ _ _ _ _ _ _ _ S i Hi) as [[S1 [S2 _]] _].
  destruct S as [SF FP RE HO Ep So]. destruct (sv_cost_data n m N SF h w p e b w' FP RE HO Ep So i CA Hi) as [d' [Ed' [G1 [_ [KI _]]]]].
  rewrite Ed in Ed'. injection Ed' as <-.
  transitivity (k_acc (wcost w i)); [unfold k_acc; rewrite S1, S2; reflexivity|].
  destruct KI as [_ En]. rewrite <- (per_step_alike _ _ _ G1). unfold k_acc, per_step, k_given, k_entry in *.
  assert (X1 : xDim ps = xDim D) by apply SD. assert (X2 : uDim ps = uDim D) by apply SD. rewrite X1, X2.
  destruct (kk (wcost w i)); try reflexivity; rewrite En, negb_involutive; reflexivity.
Qed.

(** a cost that does not accumulate *)
Lemma led_plain i d x U : In i (spCost (ctl w)) -> cost_data_of h i = Some d -> per_step ps d = false ->
  objective (fullUDim ps) (at_ (kQ (wcost w' i))) (fun j => sum (xDim ps) (fun a => at_ (kE (wcost w' i)) a j * x a) + vget (kf (wcost w' i)) j)%Qc U
  = (cost_value ps d (weights_of h i) x U - cost_value ps d (weights_of h i) x (fun _ => 0))%Qc
  /\ forall j, j < fullUDim ps -> vget (kc (wcost w' i)) j = (sum (xDim ps) (fun a => at_ (kE (wcost w' i)) a j * vget (x0 ps) a) + vget (kf (wcost w' i)) j)%Qc.
Proof using S CA.
  intros Hi Ed PS. pose proof (sd_pinv _ _ _ _ _ _ _ _ _ S) as P. destruct (sd_ps _ _ _ _ _ _ _ _ _ S) as [R [SD [_ [_ [_ [_ [_ [_ Ek]]]]]]]].
  pose proof (led_acc i d Hi Ed) as AC. rewrite PS in AC.
  destruct (sd_kshape _ _ _ _ _ _ _ _ _ S i Hi) as [[S1 [S2 [S3 [S4 [S5 S6]]]]] [ShP EnP]].
  assert (AC0 : k_acc (wcost w i) = false) by (unfold k_acc in *; rewrite <- S1, <- S2; exact AC).
  assert (EX : k_exact ps (wcost w' i)) by (apply (sd_exact _ _ _ _ _ _ _ _ _ S i Hi); congruence).
  destruct S as [SF FP RE HO Ep So]. destruct (sv_cost_data n m N SF h w p e b w' FP RE HO Ep So i CA Hi) as [d' [Ed' [G1 [G2 [KI [Fi Wr]]]]]].
  rewrite Ed in Ed'. injection Ed' as <-. split.
  - rewrite (k_value_x _ R); [|apply ShP|exact EnP|exact EX].
    rewrite !given_value. rewrite (k_given_eq (wcost w i) (wcost w' i)), S6 by assumption.
    rewrite !(cost_value_alike _ _ d _ (weights_of h i) _ _ G1 Fi Wr G2). reflexivity.
  - apply (update_costs_c _ R _ SD _ _ _ Ek (pi_rcost _ _ P) i Hi). unfold k_acc_c, k_acc in *. destruct (kk (wcost w i)); auto. 
Qed.

(** a cost that accumulates, from any initial state *)
Lemma led_steps i d : In i (spCost (ctl w)) -> cost_data_of h i = Some d -> per_step ps d = true ->
  (forall x U, objective (fullUDim ps) (at_ (kQ (wcost w' i))) (fun j => sum (xDim ps) (fun a => at_ (kE (wcost w' i)) a j * x a) + vget (kf (wcost w' i)) j)%Qc U
    = (running d (L' i) x U - running d (L' i) x (fun _ => 0))%Qc) /\
  (forall U, objective (fullUDim ps) (at_ (kQ (wcost w' i))) (vget (kc (wcost w' i))) U
    = (effective ps d (L' i) U - effective ps d (L' i) (fun _ => 0))%Qc).
Proof using S CA.
  intros Hi Ed PS. pose proof (sd_pinv _ _ _ _ _ _ _ _ _ S) as P. destruct (sd_ps _ _ _ _ _ _ _ _ _ S) as [R [SD [_ [_ [_ [_ [_ [_ Ek]]]]]]]].
  pose proof (led_acc i d Hi Ed) as AC. rewrite PS in AC.
  destruct (sd_kshape _ _ _ _ _ _ _ _ _ S i Hi) as [[S1 [S2 [S3 [S4 [S5 S6]]]]] [ShP EnP]].
  destruct (led_solve i Hi) as [[LH LK] [Lp EL]]. destruct (LK AC) as [B1 [B2 [B3 B4]]].
  destruct S as [SF FP RE HO Ep So]. destruct (sv_cost_data n m N SF h w p e b w' FP RE HO Ep So i CA Hi) as [d' [Ed' [G1 [G2 [KI [Fi Wr]]]]]].
  rewrite Ed in Ed'. injection Ed' as <-.
  assert (SD' : same_dims D ps) by (apply same_dims_sym; exact SD).
  assert (DX : xDim ps = xDim D) by apply SD. assert (DU : fullUDim ps = fullUDim D) by apply SD.
  assert (KD : k_dims D (wcost w' i)).
  { pose proof (proj1 (proj2 (proj2 ShP))) as KD. destruct SD as [E1 [E2 [E3 [E4 [E5 E6]]]]]. unfold k_dims in *. rewrite <- E1, <- E2, <- E5, <- E6. exact KD. }
  assert (KE : k_entry D (wcost w' i)) by (apply (k_entry_dims ps); assumption).
  assert (KG : k_given (wcost w' i) = k_given (wcost w i)) by (apply k_given_eq; assumption).
  assert (Fi' : cost_fits D (k_given (wcost w' i))) by (rewrite KG; apply (fits_dims ps); assumption).
  assert (G1' : cost_alike (k_given (wcost w' i)) d) by (rewrite KG; exact G1).
  assert (Kr : vsize (kp (wcost w' i)) = cost_rows (k_given (wcost w' i))).
  { rewrite KG, <- Wr, S5. symmetry. apply KI. }
  assert (RUN : forall x U, objective (fullUDim ps) (at_ (kQ (wcost w' i))) (fun j => sum (xDim ps) (fun a => at_ (kE (wcost w' i)) a j * x a) + vget (kf (wcost w' i)) j)%Qc U
    = (running d (L' i) x U - running d (L' i) x (fun _ => 0))%Qc).
  { intros x U. rewrite <- !(running_doc D (wcost w' i) d _ _ _ Fi' G1' LH Kr), <- (led_objective D _ KD KE x U (L' i) LH). rewrite DX, DU.
    apply objective_ext; [intros a c Ha Hc; apply B1; assumption|]. intros j Hj. unfold elin. rewrite (B3 j Hj). f_equal. apply sum_ext. intros a Ha. rewrite B2 by assumption. reflexivity. }
  split; [exact RUN|]. intro U.
  destruct (k_acc_c (wcost w' i)) eqn:Ac.
  - assert (MX : exists M0 N0 p0, d = DMixedC M0 N0 p0).
    { unfold k_acc_c in Ac. unfold k_given in G1'. destruct (kk (wcost w' i)); try discriminate Ac.
      destruct d; cbn in G1'; try contradiction; eauto. }
    assert (EF : forall V, effective ps d (L' i) V = (running d (L' i) (vget (x0 ps)) V + drift d [] Lp V)%Qc) by (intro V; destruct MX as [M0 [N0 [p0 ->]]]; unfold effective; rewrite EL, removelast_last; reflexivity).
    rewrite !EF.
    assert (HP : cost_history D (vsize (kp (wcost w' i))) ([] ++ Lp)) by (rewrite EL in LH; apply Forall_app in LH as [A _]; exact A).
    rewrite <- !(drift_doc D (wcost w' i) d _ Lp [] Fi' G1' HP Kr), !(led_drift D _ KD KE _ Lp [] HP).
    rewrite (sum_zero (fullUDim D) (fun j => ec _ _ _ _ j * 0)%Qc) by (intros; ring).
    transitivity (running d (L' i) (vget (x0 ps)) U - running d (L' i) (vget (x0 ps)) (fun _ => 0%Qc) + sum (fullUDim D) (fun j => ec (xDim D) (wcost w' i) [] Lp j * U j))%Qc; [|assert (X : forall r s t : Qc, (r - s + t = r + t - (s + 0))%Qc) by (intros; ring); apply X].
    rewrite <- RUN, DU, <- objective_lin. apply objective_ext; [reflexivity|]. intros j Hj.
    rewrite (B4 eq_refl j Hj).
    transitivity (ec (xDim D) (wcost w' i) [] Lp j + elin (xDim D) (wcost w' i) (L' i) (vget (x0 ps)) j)%Qc; [rewrite EL; apply ec_snoc|].
    rewrite Qcplus_comm. apply f_equal2; [|reflexivity]. unfold elin.
    rewrite (B3 j Hj), DX. f_equal. apply sum_ext. intros a Ha. rewrite B2 by assumption. reflexivity.
  - assert (EF : forall V, effective ps d (L' i) V = running d (L' i) (vget (x0 ps)) V).
    { intro V. unfold effective. destruct d; try ring. exfalso. unfold k_given in G1'. unfold k_acc_c in Ac. unfold k_acc in AC.
      destruct (kk (wcost w' i)); cbn in G1'; try contradiction; congruence. }
    rewrite !EF, <- RUN. apply objective_ext; [reflexivity|]. intros j Hj.
    apply (update_costs_c _ R _ SD _ _ _ Ek (pi_rcost _ _ P) i Hi); [|exact Hj]. unfold k_acc_c in *. rewrite <- S1, <- S2. exact Ac.
Qed.

Lemma led_value U : m_is (ctl w) = None ->
  qp_value (m_qp (ctl w')) U = (effective_cost ps h e (spCost (ctl w)) U + regularization (fullUDim ps) U - effective_cost ps h e (spCost (ctl w)) (fun _ => 0%Qc))%Qc.
Proof using S CA.
  intro NI. destruct (C28_assembly h w p e b w' (sd_RE _ _ _ _ _ _ _ _ _ S) (sd_Ep _ _ _ _ _ _ _ _ _ S) NI (sd_So _ _ _ _ _ _ _ _ _ S)) as [_ [_ [_ [_ [_ [_ [HQ [Hc _]]]]]]]]. cbv zeta in HQ, Hc.
  assert (Z : vsize (qc (m_qp (ctl w'))) = fullUDim ps).
  { destruct S as [SF FP RE HO Ep So]. destruct (sv_sizes n m N SF h w p e b w' FP RE HO Ep NI So) as [[_ [_ [Z _]]] _]. exact Z. }
  unfold qp_value. rewrite Z.
  rewrite (objective_sum _ (spCost (ctl w)) q1em6 _ _ (fun s => at_ (kQ (wcost w' s))) (fun s => vget (kc (wcost w' s))) U);
    [|intros; apply HQ|intros; apply Hc].
  unfold effective_cost, regularization.
  transitivity ((lsum (spCost (ctl w)) (fun i => match cost_data_of h i with
     | Some d => if per_step ps d then effective ps d (L' i) U else cost_value ps d (weights_of h i) (vget (x0 ps)) U | None => 0%Qc end)
    - lsum (spCost (ctl w)) (fun i => match cost_data_of h i with
     | Some d => if per_step ps d then effective ps d (L' i) (fun _ => 0%Qc) else cost_value ps d (weights_of h i) (vget (x0 ps)) (fun _ => 0%Qc) | None => 0%Qc end))
    + half * (q1em6 * sum (fullUDim ps) (fun i => U i * U i)))%Qc.
  - rewrite <- lsum_sub. rewrite Qcplus_comm. f_equal. apply lsum_ext. intros i Hi.
    destruct (sv_cost_data n m N (sd_SF _ _ _ _ _ _ _ _ _ S) h w p e b w' (sd_FP _ _ _ _ _ _ _ _ _ S) (sd_RE _ _ _ _ _ _ _ _ _ S) (sd_HO _ _ _ _ _ _ _ _ _ S) (sd_Ep _ _ _ _ _ _ _ _ _ S) (sd_So _ _ _ _ _ _ _ _ _ S) i CA Hi) as [d [Ed _]]. rewrite Ed.
    destruct (per_step ps d) eqn:PS.
    + apply (led_steps i d Hi Ed PS).
    + destruct (led_plain i d (vget (x0 ps)) U Hi Ed PS) as [V K]. rewrite <- V. apply objective_ext; [reflexivity|exact K].
  - unfold effective_cost. ring.
Qed.

(** the same program for the controller that also chooses the initial state *)
Lemma led_value_from s X : m_is (ctl w) = Some s ->
  let U := ctrl_part n X in
  qp_value (m_qp (ctl w')) X =
    (effective_cost_from ps h e (spCost (ctl w)) X U + regularization (m * N) U
     + (objective n (at_ (qQ (m_qp (ctl w')))) (vget (qc (m_qp (ctl w')))) X - effective_cost_from ps h e (spCost (ctl w)) X (fun _ => 0)))%Qc.
Proof using S CA.
  intros Is. cbv zeta.
  destruct (si_dims n m N (sd_SF _ _ _ _ _ _ _ _ _ S) h w p s e b w' S Is) as [D1 [D2 [[_ [_ [Y0 _]]] [_ [_ [Z0 _]]]]]].
  assert (A := C28_assembly_initial_state h w p s e b w' (sd_RE _ _ _ _ _ _ _ _ _ S) (sd_Ep _ _ _ _ _ _ _ _ _ S) Is (sd_So _ _ _ _ _ _ _ _ _ S)).
  cbv zeta in A. rewrite D1, D2 in A. specialize (A Y0).
  destruct A as [_ [_ [_ [_ [_ [_ [HQ [HE [_ [_ [HF _]]]]]]]]]]].
  unfold qp_value. rewrite Z0, (objective_blocks n (m * N) _ _ X _ HE).
  rewrite (objective_sum _ (spCost (ctl w)) q1em6 _ _ (fun k => at_ (kQ (wcost w' k)))
     (fun k j => (sum n (fun i => at_ (kE (wcost w' k)) i j * X i) + vget (kf (wcost w' k)) j)%Qc) (ctrl_part n X)).
  - unfold effective_cost_from, regularization.
    rewrite (lsum_ext (spCost (ctl w)) (fun k => objective _ _ _ (ctrl_part n X))
      (fun i => match cost_data_of h i with Some d => if per_step ps d then running d (L' i) X (ctrl_part n X) else cost_value ps d (weights_of h i) X (ctrl_part n X) | None => 0%Qc end
              - match cost_data_of h i with Some d => if per_step ps d then running d (L' i) X (fun _ => 0%Qc) else cost_value ps d (weights_of h i) X (fun _ => 0%Qc) | None => 0%Qc end)%Qc).
    + rewrite lsum_sub. ring.
    + intros i Hi.
      destruct (sv_cost_data n m N (sd_SF _ _ _ _ _ _ _ _ _ S) h w p e b w' (sd_FP _ _ _ _ _ _ _ _ _ S) (sd_RE _ _ _ _ _ _ _ _ _ S) (sd_HO _ _ _ _ _ _ _ _ _ S) (sd_Ep _ _ _ _ _ _ _ _ _ S) (sd_So _ _ _ _ _ _ _ _ _ S) i CA Hi) as [d [Ed _]]. rewrite Ed.
      rewrite <- D1, <- D2. destruct (per_step ps d) eqn:PS; [apply (led_steps i d Hi Ed PS)|apply (led_plain i d X _ Hi Ed PS)].
  - intros i j Hi Hj. apply HQ; assumption.
  - intros j Hj. rewrite HF by exact Hj. rewrite lsum_add. f_equal.
    rewrite <- (sum_ext n (fun i => lsum (spCost (ctl w)) (fun k => at_ (kE (wcost w' k)) i j * X i)%Qc)).
    + symmetry. apply lsum_sum.
    + intros i Hi. rewrite <- (Qcmult_comm (X i)), <- lsum_scal. apply lsum_ext. intros. ring.
Qed.
End Solve.

(** ** Solving again *)
Lemma qz_add (a b : nat) : qz (Z.of_nat (a + b)) = (qz (Z.of_nat a) + qz (Z.of_nat b))%Qc.
Proof.
  apply Qc_is_canon. unfold qz, Qcplus, Q2Qc. cbn [this]. rewrite !Qred_correct, Nat2Z.inj_add, inject_Z_plus. reflexivity.
Qed.
Lemma qz_1 : qz (Z.of_nat 1) = 1%Qc.
Proof. apply Qc_is_canon. reflexivity. Qed.
Lemma qz_0 : qz (Z.of_nat 0) = 0%Qc.
Proof. apply Qc_is_canon. reflexivity. Qed.
Lemma times_add a b v : times (a + b) v = (times a v + times b v)%Qc.
Proof. unfold times. rewrite qz_add. ring. Qed.
Lemma times_1 v : times 1 v = v.
Proof. unfold times. rewrite qz_1. ring. Qed.
Lemma times_0 v : times 0 v = 0%Qc.
Proof. unfold times. rewrite qz_0. ring. Qed.
Lemma running_repeat d a k x U : running d (repeat a k) x U = times k (cost_value (snd a) d (fst a) x U).
Proof.
  unfold running. induction k as [|k IH]; cbn [repeat over]; [rewrite times_0; reflexivity|].
  rewrite IH. change (S k) with (1 + k). rewrite times_add, times_1. reflexivity.
Qed.
Lemma repeat_snoc {A} (a : A) p k : repeat a p ++ repeat a (S k) = (repeat a p ++ [a]) ++ repeat a k.
Proof. rewrite <- app_assoc. reflexivity. Qed.
Lemma drift_repeat d a U : forall k p,
  drift d (repeat a p) (repeat a k) U = times (below k + k * S p) (linear_part (cost_value (snd a) d (fst a) (vget (x0 (snd a)))) U).
Proof.
  induction k as [|k IH]; intro p; cbn [drift repeat]; [cbn [below Nat.mul Nat.add]; rewrite times_0; reflexivity|].
  rewrite <- (repeat_last a p), IH.
  assert (E : linear_part (running d (repeat a (S p)) (vget (x0 (snd a)))) U = times (S p) (linear_part (cost_value (snd a) d (fst a) (vget (x0 (snd a)))) U)).
  { unfold linear_part. rewrite !running_repeat. unfold times. ring. }
  rewrite E, <- times_add. f_equal. cbn [below]. lia.
Qed.
Lemma removelast_repeat {A} (a : A) k : removelast (repeat a (S k)) = repeat a k.
Proof. rewrite repeat_last. apply removelast_last. Qed.
Lemma below_S k : below (S k) = below k + k.
Proof. reflexivity. Qed.
Lemma effective_repeat ps d v k U : effective ps d (repeat (v, ps) (S k)) U =
  (times (S k) (cost_value ps d v (vget (x0 ps)) U)
   + match d with DMixedC _ _ _ => times (below (S k)) (linear_part (cost_value ps d v (vget (x0 ps))) U) | _ => 0 end)%Qc.
Proof.
  unfold effective. rewrite running_repeat. cbn [fst snd]. f_equal. destruct d; try reflexivity.
  rewrite removelast_repeat. change (@nil entry) with (repeat (v, ps) 0). rewrite drift_repeat. cbn [fst snd]. f_equal. rewrite below_S. lia.
Qed.

Lemma added_updates i : forall h w, reached h w -> added_since_solve h i -> updates_of h i = [].
Proof.
  intros h w R [h1 [j [h2 [-> NS]]]]. revert w R. induction h2 as [|o h2 IH] using rev_ind; intros w R.
  - unfold reached in R. rewrite run_app in R. destruct (run world0 h1) as [w1|] eqn:E1; [|discriminate R]. cbn [obind run] in R.
    rewrite (updates_snoc h1 w1 (OAddCost j i) w i E1); [cbn [ledger_op]; rewrite Nat.eqb_refl; reflexivity|].
    destruct (step w1 (OAddCost j i)) as [v|y v|] eqn:Es; [left|right; exists y|discriminate R]; rewrite Es; injection R as ->; reflexivity.
  - rewrite app_comm_cons, app_assoc in R |- *. pose proof R as R'. unfold reached in R. rewrite run_app in R. destruct (run world0 (h1 ++ OAddCost j i :: h2)) as [w1|] eqn:E1; [|discriminate R]. cbn [obind run] in R.
    assert (St : stepped w1 o w) by (destruct (step w1 o) as [v|y v|] eqn:Es; [left|right; exists y|discriminate R]; rewrite Es; injection R as ->; reflexivity).
    rewrite (updates_snoc _ w1 o w i E1 St). specialize (IH (fun e He => NS e (in_or_app _ _ _ (or_introl He))) w1 E1). rewrite IH.
    destruct o; try reflexivity; cbn [ledger_op].
    + match goal with |- (if ?c then _ else _) = _ => destruct c; reflexivity end.
    + exfalso. eapply NS. apply in_or_app. right. left. reflexivity.
Qed.
Lemma new_costs_solves h es : new_costs (h ++ map OSolve es) = new_costs h.
Proof.
  unfold new_costs. rewrite flat_map_app. rewrite <- (app_nil_r (flat_map _ h)) at 2. f_equal.
  induction es as [|e es IH]; [reflexivity|]. cbn [map flat_map]. rewrite IH. reflexivity.
Qed.
Lemma weights_solves h es i : weights_of (h ++ map OSolve es) i = weights_of h i.
Proof.
  unfold weights_of. rewrite new_costs_solves. destruct (nth_error (new_costs h) i) as [d|]; [|reflexivity].
  unfold weights_after. rewrite fold_left_app. generalize (fold_left (weights_after_call d i) h (vconst (cost_rows d) 1%Qc)).
  induction es as [|e es IH]; intro v; [reflexivity|]. cbn [map fold_left weights_after_call]. apply IH.
Qed.

Section Repeated.
Variables (n m N : nat) (h : list op) (w : world) (p : nat).
Hypothesis SF : sizes_fit n m N.
Hypothesis RE : reached h w.
Hypothesis Ep : m_ps (ctl w) = Some p.
(* the user kept the pointers to the registered costs *)
Hypothesis OK : forall i, In i (spCost (ctl w)) -> 0 < hcost w i.

Lemma repeated : forall es u, follows_protocol n m N world0 (h ++ map OSolve es) -> run w (map OSolve es) = Some u ->
  reached (h ++ map OSolve es) u /\ m_ps (ctl u) = Some p /\ spCost (ctl u) = spCost (ctl w) /\ hcost u = hcost w /\ (es <> [] -> isUpdated (wps u p) = true) /\
  forall i, cnt i (spCost (ctl w)) = 1 -> updates_of (h ++ map OSolve es) i = updates_of h i ++ repeat (weights_of h i, wps u p) (length es).
Proof using SF RE Ep OK.
  induction es as [|e es IH] using rev_ind; intros u FP Ru.
  - cbn in Ru. injection Ru as <-. cbn [map length repeat]. rewrite app_nil_r. split; [exact RE|]. split; [exact Ep|]. split; [reflexivity|]. split; [reflexivity|]. split; [congruence|].
    intros. rewrite app_nil_r. reflexivity.
  - rewrite map_app in Ru, FP |- *. rewrite app_assoc in FP |- *. cbn [map] in *. apply run_solve in Ru as [v [b [Rv So]]].
    destruct (IH v (follows_prefix _ _ _ _ _ _ FP) Rv) as [Re [Ev [Lv [Hv [Uv Le]]]]].
    pose proof (sv_pinv n m N SF _ v (follows_prefix _ _ _ _ _ _ FP) Re) as P.
    assert (Ru : reached ((h ++ map OSolve es) ++ [OSolve e]) u) by (unfold reached in *; rewrite run_app, Re; cbn [obind run step]; rewrite So; reflexivity).
    destruct (solve_keeps_is _ _ _ _ So) as [_ Em].
    destruct (solve_lists e v b u (pi_reg _ _ P) So) as [_ [H2 [_ [_ [_ [_ L5]]]]]].
    destruct (solve_objs _ _ _ _ So) as [p' [ps [wc [wk [Ep' [Eu [_ [_ [Hw _]]]]]]]]]. rewrite Ev in Ep'. injection Ep' as <-.
    assert (Eps : wps u p = ps) by (rewrite Hw; unfold upd; rewrite Nat.eqb_refl; reflexivity).
    split; [exact Ru|]. split; [congruence|].
    assert (KK : spCost (ctl u) = spCost (ctl v)).
    { rewrite L5. apply filter_all. intros i Hi. unfold survives. rewrite Hv, (proj2 (Nat.eqb_neq _ 0)); [reflexivity|]. rewrite Lv in Hi. specialize (OK i Hi). lia. }
    split; [congruence|]. split; [congruence|]. split.
    + intros _. rewrite Eps. destruct (pi_m _ _ P p Ev) as [Np _]. destruct (ensure_live _ _ (pi_ps _ _ P p Np)) as [ps' [Eu' [_ [_ Up]]]]. congruence.
    + intros i Ci. assert (St : stepped v (OSolve e) u) by (left; cbn [step]; rewrite So; reflexivity).
      rewrite (updates_snoc _ v (OSolve e) u i Re St). cbn [ledger_op]. rewrite Ev, Lv, Ci, (Le i Ci), weights_solves, app_length. cbn [length].
      rewrite Nat.add_1_r, repeat_last. cbn [repeat]. rewrite <- app_assoc. f_equal. f_equal.
      destruct es as [|e0 es']; [reflexivity|].
      assert (Ex : wps v p = wps u p) by (unfold ensureUpdated in Eu; rewrite (Uv ltac:(discriminate)) in Eu; rewrite Eps; injection Eu as <-; reflexivity).
      rewrite Ex. cbn [app]. symmetry. apply (repeat_last (weights_of h i, wps u p)). 
Qed.
End Repeated.
