(** Properties_Moves.v -- C62: moving controllers. *)
From Verif Require Import Base Eigen Spec Preview AutoSpan Constraints Costs Controller Registry SpecController SpecProtocol Protocol Properties_Protocol
  SpecApi Properties_Results SpecEndToEnd EndToEndMain ExactSolver Properties_EndToEnd SpecMeaning Meaning Properties_Meaning Checkers Controllers SpecSharing Sharing Properties_Sharing
  Moves SpecMoves MoveProofs MoveReuse.

Lemma swap_swap a b c : swap a b (swap a b c) = c.
Proof. unfold swap. destruct (Nat.eqb_spec c a) as [->|N]; [rewrite Nat.eqb_refl; destruct (Nat.eqb_spec b a) as [->|]; reflexivity|].
  destruct (Nat.eqb_spec c b) as [->|M]; [rewrite Nat.eqb_refl; reflexivity|]. rewrite (proj2 (Nat.eqb_neq c a) N), (proj2 (Nat.eqb_neq c b) M). reflexivity. Qed.
Lemma swap_in K a b c : a < K -> b < K -> c < K -> swap a b c < K.
Proof. unfold swap. destruct (Nat.eqb c a), (Nat.eqb c b); auto. Qed.
Lemma vrun_app K h : forall t w, vrun K w (h ++ t) = match vrun K w h with Some w' => vrun K w' t | None => None end.
Proof. induction h as [|v h IH]; intros t w; cbn; [reflexivity|]. destruct (vstep K w v); auto. Qed.
Lemma same_objects_refl w : same_objects w w. Proof. repeat split. Qed.

(** the names of the controllers do not matter: two controllers exchange their names *)
Theorem C62_names : forall K a b h,
  a < K -> b < K ->
  answers K vworld0 h = answers K vworld0 (rename a b h) /\
  match vrun K vworld0 h, vrun K vworld0 (rename a b h) with
  | Some V, Some V' => same_objects (vm V) (vm V') /\ forall c, c < K -> mctl (vm V) c = mctl (vm V') (swap a b c) /\ vsol V c = vsol V' (swap a b c)
  | None, None => True
  | _, _ => False
  end.
Proof.
  intros K a b h Ha Hb.
  assert (S : vsim K (swap a b) (fun _ => false) vworld0 vworld0) by (split; cbn; [apply same_objects_refl|auto|discriminate]).
  destruct (vsim_run K (swap a b) (fun _ => false) (swap_swap a b) (fun c => swap_in K a b c Ha Hb) h vworld0 vworld0 S ltac:(intros v _ c H; discriminate H)) as [R A].
  split; [exact A|]. unfold rename. destruct (vrun K vworld0 h) as [V|], (vrun K vworld0 (map (rename1 (swap a b)) h)) as [V'|]; try exact R.
  destruct R as [O B _]. split; [exact O|]. intros c Hc. apply B; [exact Hc|reflexivity].
Qed.
Print Assumptions C62_names.

(** the two ways of moving controller [a] to [b] *)
Definition is_move (W : vworld) (a b : nat) (mv : vop) : Prop :=
  mv = VMoveNew a b \/ (mv = VMoveAssign a b /\ (m_is (mctl (vm W) a) = None <-> m_is (mctl (vm W) b) = None)) (* of the same class *).
Lemma move_state K W a b mv : a < K -> b < K -> a <> b -> is_move W a b mv ->
  exists l, vstep K W mv = Ok (move_to W a b l) /\ no_lists l /\ m_ps l = None /\
    nrEq l = nrEq (mctl (vm W) a) /\ nrIneq l = nrIneq (mctl (vm W) a) /\ (m_is l = None <-> m_is (mctl (vm W) a) = None).
Proof.
  intros Ha Hb N [->|[-> SC]]; cbn [vstep]; rewrite (proj2 (Nat.ltb_lt a K) Ha), (proj2 (Nat.ltb_lt b K) Hb), (proj2 (Nat.eqb_neq a b) N); cbn [andb negb].
  - eexists. split; [reflexivity|]. repeat split; cbn; destruct (m_is _); congruence.
  - assert (SC' : same_class (mctl (vm W) a) (mctl (vm W) b) = true).
    { unfold same_class. destruct (m_is (mctl (vm W) a)), (m_is (mctl (vm W) b)); try reflexivity; exfalso.
      - pose proof (proj2 SC eq_refl) as X; discriminate X.
      - pose proof (proj1 SC eq_refl) as X; discriminate X. }
    rewrite SC'. eexists. split; [reflexivity|]. repeat split; cbn; apply SC.
Qed.

(** a program that moves [a] to [b] and no longer uses [a] is the program that does not move and goes on with [a]
    ([b] being replaced by a new controller that is not used): same answers of all calls, same objects, and [b] is in the
    state [a] would have been in, at every later time *)
Theorem C62_moved_goes_on : forall K h1 W a b mv h2,
  vrun K vworld0 h1 = Some W -> a < K -> b < K -> a <> b -> is_move W a b mv -> without a h2 ->
  let stay := VCall (MCtl b (OConstruct j0 CLMPC qempty)) in
  answers K W (mv :: h2) = answers K W (stay :: rename a b h2) /\
  match vrun K vworld0 (h1 ++ mv :: h2), vrun K vworld0 (h1 ++ stay :: rename a b h2) with
  | Some V, Some V' => same_objects (vm V) (vm V') /\ mctl (vm V) b = mctl (vm V') a /\ vsol V b = vsol V' a /\
      forall c, c < K -> c <> a -> c <> b -> mctl (vm V) c = mctl (vm V') c /\ vsol V c = vsol V' c
  | None, None => True
  | _, _ => False
  end.
Proof.
  intros K h1 W a b mv h2 R Ha Hb N MV WO stay.
  destruct (move_state K W a b mv Ha Hb N MV) as [l [EM [NL _]]].
  assert (ES : vstep K W stay = Ok (VWorld (put b (vm W) (set_ctl (view K b (vm W)) (lmpc_default None qempty))) (upd (vsol W) b true))).
  { unfold stay. cbn [vstep mstep]. rewrite (proj2 (Nat.ltb_lt b K) Hb). reflexivity. }
  set (W2 := VWorld (put b (vm W) (set_ctl (view K b (vm W)) (lmpc_default None qempty))) (upd (vsol W) b true)) in ES.
  set (W1 := move_to W a b l) in EM.
  assert (S : vsim K (swap a b) (Nat.eqb a) W1 W2).
  { split.
    - repeat split.
    - intros c Hc D. apply Nat.eqb_neq in D. cbn. unfold upd, swap. rewrite (proj2 (Nat.eqb_neq c a)) by congruence.
      destruct (Nat.eqb_spec c b) as [->|M]; [rewrite (proj2 (Nat.eqb_neq a b) N); auto|]. rewrite (proj2 (Nat.eqb_neq c b) M). auto.
    - intros c Hc D. apply Nat.eqb_eq in D. subst c. cbn. unfold upd, swap. rewrite !Nat.eqb_refl. split; [exact NL|repeat split]. }
  destruct (vsim_run K (swap a b) (Nat.eqb a) (swap_swap a b) (fun c => swap_in K a b c Ha Hb) h2 W1 W2 S) as [RR AA].
  { intros v Hv c D. apply Nat.eqb_eq in D. subst c. apply WO. exact Hv. }
  split.
  - cbn [answers]. rewrite EM, ES. f_equal; [|exact AA]. unfold answer1. rewrite EM, ES. destruct MV as [->|[-> _]]; reflexivity.
  - rewrite !vrun_app, R. cbn [vrun]. rewrite EM, ES. unfold rename.
    destruct (vrun K W1 h2) as [V|], (vrun K W2 (map (rename1 (swap a b)) h2)) as [V'|]; try exact RR.
    destruct RR as [O B _]. split; [exact O|].
    assert (Sb : swap a b b = a) by (unfold swap; rewrite (proj2 (Nat.eqb_neq b a)) by congruence; rewrite Nat.eqb_refl; reflexivity).
    destruct (B b Hb (proj2 (Nat.eqb_neq a b) N)) as [B1 B2]. rewrite Sb in B1, B2. split; [exact B1|]. split; [exact B2|].
    intros c Hc Na Nb. assert (Sc : swap a b c = c) by (unfold swap; rewrite (proj2 (Nat.eqb_neq c a) Na), (proj2 (Nat.eqb_neq c b) Nb); reflexivity).
    specialize (B c Hc (proj2 (Nat.eqb_neq a c) ltac:(congruence))). rewrite Sc in B. exact B.
Qed.
Print Assumptions C62_moved_goes_on.

(** right after the move: [b] is what [a] was, the objects and the other controllers are not touched, no owner is lost *)
Theorem C62_move_keeps : forall K W a b mv W',
  a < K -> b < K -> a <> b -> is_move W a b mv -> vstep K W mv = Ok W' ->
  mctl (vm W') b = mctl (vm W) a /\ same_objects (vm W') (vm W) /\ (forall c, c <> a -> c <> b -> mctl (vm W') c = mctl (vm W) c) /\
  (* owners among the controllers *)
  (forall i, others K K (fun c => held_con (mctl (vm W') c) i) + held_con (mctl (vm W) b) i = others K K (fun c => held_con (mctl (vm W) c) i)) /\
  (forall i, others K K (fun c => held_cost (mctl (vm W') c) i) + held_cost (mctl (vm W) b) i = others K K (fun c => held_cost (mctl (vm W) c) i)).
Proof.
  intros K W a b mv W' Ha Hb N MV E. destruct (move_state K W a b mv Ha Hb N MV) as [l [EM [NL _]]]. rewrite EM in E. injection E as <-.
  split; [cbn; unfold upd; rewrite Nat.eqb_refl, (proj2 (Nat.eqb_neq b a)) by congruence; reflexivity|]. split; [repeat split|].
  split; [intros c Na Nb; cbn; unfold upd; rewrite (proj2 (Nat.eqb_neq c a) Na), (proj2 (Nat.eqb_neq c b) Nb); reflexivity|].
  assert (G : forall (F : lmpc -> nat), F l = 0 -> others K K (fun c => F (mctl (vm (move_to W a b l)) c)) + F (mctl (vm W) b) = others K K (fun c => F (mctl (vm W) c))).
  { intros F Fl. rewrite !others_ge by lia. set (f := fun c => F (mctl (vm W) c)).
    assert (X : forall g n, (forall c, c < n -> c <> a -> c <> b -> g c = f c) -> g a = 0 -> g b = f a ->
      list_sum (map g (seq 0 n)) + (if a <? n then f a else 0) + (if b <? n then f b else 0) = list_sum (map f (seq 0 n)) + (if b <? n then f a else 0)).
    { intros g n. induction n as [|n IH]; intros Hg Ga Gb; [reflexivity|]. rewrite seq_S, !map_app, !list_sum_app. cbn [map list_sum fold_right plus].
      specialize (IH ltac:(intros; apply Hg; lia) Ga Gb).
      destruct (Nat.eq_dec n a) as [->|Na].
      - rewrite Ga. destruct (Nat.ltb_spec a a), (Nat.ltb_spec a (S a)), (Nat.ltb_spec b a), (Nat.ltb_spec b (S a)); lia.
      - destruct (Nat.eq_dec n b) as [->|Nb].
        + rewrite Gb. destruct (Nat.ltb_spec b b), (Nat.ltb_spec b (S b)), (Nat.ltb_spec a b), (Nat.ltb_spec a (S b)); lia.
        + rewrite Hg by lia. destruct (Nat.ltb_spec a n), (Nat.ltb_spec a (S n)), (Nat.ltb_spec b n), (Nat.ltb_spec b (S n)); lia. }
    specialize (X (fun c => F (mctl (vm (move_to W a b l)) c)) K). cbv beta in X.
    rewrite (proj2 (Nat.ltb_lt a K) Ha), (proj2 (Nat.ltb_lt b K) Hb) in X.
    change (F (mctl (vm W) b)) with (f b).
    enough (list_sum (map (fun c => F (mctl (vm (move_to W a b l)) c)) (seq 0 K)) + f a + f b = list_sum (map f (seq 0 K)) + f a) by lia.
    apply X.
    - intros c _ Na Nb. cbn. unfold upd. rewrite (proj2 (Nat.eqb_neq c a) Na), (proj2 (Nat.eqb_neq c b) Nb). reflexivity.
    - cbn. unfold upd. rewrite Nat.eqb_refl. exact Fl.
    - cbn. unfold upd. rewrite Nat.eqb_refl, (proj2 (Nat.eqb_neq b a)) by congruence. reflexivity. }
  split; intro i; [apply (G (fun m => held_con m i)), held_con_none, NL|apply (G (fun m => held_cost m i)), held_cost_none, NL].
Qed.
Print Assumptions C62_move_keeps.

(** the controller moved from: solve() is undefined until it has been given a solver and a preview system again *)
Theorem C62_moved_from_undefined : forall K W a b mv W' e j i r,
  a < K -> b < K -> a <> b -> is_move W a b mv -> vstep K W mv = Ok W' -> 0 < mhcon (vm W) i -> 0 < mhcost (vm W) i ->
  vstep K W' (VCall (MCtl a (OSolve e))) = UB /\
  vrun K W' [VCall (MCtl a (OSolver r)); VCall (MCtl a (OSolve e))] = None /\
  (forall p, vrun K W' [VCall (MCtl a (OInitController j p)); VCall (MCtl a (OSolve e))] = None) /\
  vstep K W' (VCall (MCtl a (OAddCost j i))) = UB /\ vstep K W' (VCall (MCtl a (OAddCon j i))) = UB.
Proof.
  intros K W a b mv W' e j i r Ha Hb N MV E HC HK. destruct (move_state K W a b mv Ha Hb N MV) as [l [EM [NL [PL _]]]]. rewrite EM in E. injection E as <-.
  assert (SA : vsol (move_to W a b l) a = false) by (cbn; unfold upd; rewrite Nat.eqb_refl; reflexivity).
  assert (CA : mctl (vm (move_to W a b l)) a = l) by (cbn; unfold upd; rewrite Nat.eqb_refl; reflexivity).
  assert (UBs : forall w, vsol w a = false -> vstep K w (VCall (MCtl a (OSolve e))) = UB).
  { intros w Hw. cbn [vstep]. rewrite (proj2 (Nat.ltb_lt a K) Ha), Hw. reflexivity. }
  split; [apply UBs; exact SA|]. split.
  { cbn [vrun]. cbn [vstep uses_solver sets_solver]. rewrite Bool.andb_false_r. cbn [andb]. cbn [mstep is_shared can_write negb]. rewrite (proj2 (Nat.ltb_lt a K) Ha). cbn [andb out_map step uses_solver].
    match goal with |- context [vsol ?w a] => idtac end || idtac.
    cbn [vsol]. unfold upd at 1. rewrite Nat.eqb_refl. cbn [andb negb vm]. unfold mstep. rewrite ?(proj2 (Nat.ltb_lt a K) Ha). cbn [andb is_shared can_write negb].
    cbn [step]. match goal with |- context [solve e ?w] => assert (X : solve e w = None) end.
    { unfold solve, build, lmpc_updateSystem. cbn [view ctl put mctl]. unfold upd at 1 2. rewrite Nat.eqb_refl. cbn [set_ctl set_sol ctl m_ps view]. rewrite CA, PL. reflexivity. }
    rewrite X. reflexivity. }
  split.
  { intro p. cbn [vrun]. destruct (vstep K (move_to W a b l) (VCall (MCtl a (OInitController j p)))) as [x|y x|] eqn:Q; [| |reflexivity];
      (rewrite UBs; [reflexivity|]); cbn [vstep uses_solver sets_solver] in Q; rewrite Bool.andb_false_r in Q; cbn [andb] in Q;
      (destruct (mstep K (vm (move_to W a b l)) (MCtl a (OInitController j p))) as [z|u z|]; cbn [out_map] in Q; try discriminate Q; injection Q; intros; subst; exact SA). }
  split; cbn [vstep uses_solver sets_solver]; rewrite Bool.andb_false_r; cbn [andb mstep is_shared can_write negb]; rewrite (proj2 (Nat.ltb_lt a K) Ha); cbn [andb].
  - rewrite (proj2 (Nat.ltb_lt 0 (mhcost (vm (move_to W a b l)) i)) HK). cbn [step]. unfold with_cost. cbn [view hcost].
    destruct (0 <? _) eqn:Z; [|apply Nat.ltb_ge in Z; cbn in Z; lia]. unfold addCost. cbn [view ctl]. rewrite CA, PL. reflexivity.
  - rewrite (proj2 (Nat.ltb_lt 0 (mhcon (vm (move_to W a b l)) i)) HC). cbn [step]. unfold with_con. cbn [view hcon].
    destruct (0 <? _) eqn:Z; [|apply Nat.ltb_ge in Z; cbn in Z; lia]. unfold addConstraint. cbn [view ctl]. rewrite CA, PL. reflexivity.
Qed.
Print Assumptions C62_moved_from_undefined.

(** useSolver(nullptr): nothing but that controller's solve() is affected, which is undefined until it gets a solver *)
Theorem C62_no_solver : forall K W c, c < K ->
  exists W', vstep K W (VNoSolver c) = Ok W' /\ vm W' = vm W /\
    (forall e, vstep K W' (VCall (MCtl c (OSolve e))) = UB) /\
    (forall d o, d <> c \/ (forall e, o <> OSolve e) ->
       match vstep K W' (VCall (MCtl d o)), vstep K W (VCall (MCtl d o)) with
       | Ok x, Ok y => vm x = vm y
       | Throw e x, Throw e' y => e = e' /\ vm x = vm y
       | UB, UB => True
       | _, _ => False
       end) /\
    (forall r, exists V V', vstep K W' (VCall (MCtl c (OSolver r))) = Ok V /\ vstep K W (VCall (MCtl c (OSolver r))) = Ok V' /\
       vm V = vm V' /\ forall d, vsol V d = vsol V' d).
Proof.
  intros K W c Hc. pose proof (proj2 (Nat.ltb_lt c K) Hc) as HB.
  exists (VWorld (vm W) (upd (vsol W) c false)). split; [cbn [vstep]; rewrite HB; reflexivity|]. split; [reflexivity|]. split; [|split].
  - intro e. cbn [vstep vsol]. unfold upd. rewrite HB, Nat.eqb_refl. reflexivity.
  - intros d o H. assert (E : (d <? K) && uses_solver o && negb (upd (vsol W) c false d) = (d <? K) && uses_solver o && negb (vsol W d)).
    { unfold upd. destruct (Nat.eqb_spec d c) as [E|E]; [|reflexivity]. destruct H as [H|H]; [contradiction|].
      assert (U : uses_solver o = false) by (destruct o; try reflexivity; exfalso; eapply H; reflexivity).
      rewrite U, Bool.andb_false_r. reflexivity. }
    cbn [vstep vm vsol]. rewrite E. destruct ((d <? K) && uses_solver o && negb (vsol W d)); [exact I|].
    destruct (mstep K (vm W) (MCtl d o)); cbn [out_map]; [reflexivity|split; reflexivity|exact I].
  - intro r. cbn [vstep uses_solver sets_solver vm vsol]. rewrite Bool.andb_false_r. cbn [andb mstep is_shared can_write negb]. rewrite HB. cbn [andb step out_map].
    eexists. eexists. split; [reflexivity|]. split; [reflexivity|]. split; [reflexivity|]. intro d. cbn [vsol]. unfold upd. destruct (Nat.eqb d c); reflexivity.
Qed.
Print Assumptions C62_no_solver.
(** given a solver, a preview system and (for InitialStateLMPC) an initial-state cost and bounds again, it works as a controller
    newly built in its place: all later calls give the same answers, everything registered is the same, and from the next
    successful solve on nothing tells the two apart (until then control(), trajectory(), the timers and the numbers of
    constraint rows may be those of before the move) *)
Definition on (a : nat) (l : list op) : list vop := map (fun o => VCall (MCtl a o)) l.
Definition again (j : junk) (r : vec Qc) (p : nat) (R : mx) (r0 : vec Qc) (lo up : vec ext) : list op :=
  [OSolver r; OInitController j p; OResetX0Cost R r0; OResetX0Bounds lo up].
Definition afresh (k : ctor) (j : junk) (r : vec Qc) (p : nat) (R : mx) (r0 : vec Qc) (lo up : vec ext) : list op :=
  [OConstruct j k r; OInitController j p; OResetX0Cost R r0; OResetX0Bounds lo up].
Definition not_moved_again (a : nat) (h : list vop) : Prop := forall x y, In (VMoveNew x y) h \/ In (VMoveAssign x y) h -> x <> a /\ y <> a.
Theorem C62_reused : forall K h1 W a b mv k j r p R r0 lo up h2 V,
  vrun K vworld0 h1 = Some W -> a < K -> b < K -> a <> b -> is_move W a b mv -> not_moved_again a h2 ->
  (* a new controller of the class of [a] *)
  k = match m_is (mctl (vm W) a) with None => CLMPC | Some _ => CIS end ->
  vrun K vworld0 (h1 ++ mv :: on a (again j r p R r0 lo up) ++ h2) = Some V ->
  exists V', vrun K vworld0 (h1 ++ mv :: on a (afresh k j r p R r0 lo up) ++ h2) = Some V' /\
    answers K W (mv :: on a (again j r p R r0 lo up) ++ h2) = answers K W (mv :: on a (afresh k j r p R r0 lo up) ++ h2) /\
    same_objects (vm V) (vm V') /\ (forall c, c < K -> c <> a -> mctl (vm V) c = mctl (vm V') c) /\
    (let m := mctl (vm V) a in let m' := mctl (vm V') a in
     m_ps m = m_ps m' /\ m_is m = m_is m' /\ spC m = spC m' /\ spEq m = spEq m' /\ spIneq m = spIneq m' /\ spB m = spB m' /\ spCost m = spCost m' /\ m_sol m = m_sol m') /\
    (forall e, match vstep K V (VCall (MCtl a (OSolve e))) with
     | Ok V1 => exists V1', vstep K V' (VCall (MCtl a (OSolve e))) = Ok V1' /\
         answer1 K V (VCall (MCtl a (OSolve e))) = answer1 K V' (VCall (MCtl a (OSolve e))) /\
         (answer1 K V (VCall (MCtl a (OSolve e))) = Solved true ->
            same_objects (vm V1) (vm V1') /\ forall c, c < K -> mctl (vm V1) c = mctl (vm V1') c)
     | Throw _ _ => False
     | UB => True end).
Proof.
  intros K h1 W a b mv k j r p R r0 lo up h2 V RW Ha Hb N MV NM EK RV.
  destruct (move_state K W a b mv Ha Hb N MV) as [l [EM [[L1 [L2 [L3 [L4 L5]]]] [PL [NE [NI IS]]]]]].
  set (W1 := move_to W a b l) in EM.
  assert (CA : mctl (vm W1) a = l) by (cbn; unfold upd; rewrite Nat.eqb_refl; reflexivity).
  rewrite vrun_app, RW in RV. cbn [vrun] in RV. rewrite EM, vrun_app in RV.
  destruct (vrun K W1 (on a (again j r p R r0 lo up))) as [W2|] eqn:E2; [|discriminate RV].
  (* one call on [a] *)
  assert (ST : forall w o, is_shared o = false -> uses_solver o = false -> can_write (vm w) o = true ->
    vstep K w (VCall (MCtl a o)) = out_map (fun x => VWorld (put a (vm w) x) (if sets_solver o then upd (vsol w) a true else vsol w)) (step (view K a (vm w)) o)).
  { intros w o SH US CW. cbn [vstep]. rewrite US, Bool.andb_false_r. cbn [andb mstep]. rewrite (proj2 (Nat.ltb_lt a K) Ha), SH, CW. cbn [andb negb]. destruct (step (view K a (vm w)) o); reflexivity. }
  assert (AR : forall w o, match o with OSolver _ | OConstruct _ _ _ | OInitController _ _ | OResetX0Cost _ _ | OResetX0Bounds _ _ => True | _ => False end ->
    answer1 K w (VCall (MCtl a o)) = Returned).
  { intros w o KO. unfold answer1. destruct o; try contradiction; rewrite ST by reflexivity; cbn [step]; try reflexivity;
      [destruct (construct _ _ _ _)|destruct (initializeController _ _ _)]; reflexivity. }
  (* both are defined or not, and related *)
  assert (X : exists W2', vrun K W1 (on a (afresh k j r p R r0 lo up)) = Some W2' /\ stale K a W2 W2' /\
    answers K W1 (on a (again j r p R r0 lo up)) = answers K W1 (on a (afresh k j r p R r0 lo up))).
  { unfold on, again, afresh in E2 |- *. cbn [map vrun answers] in E2 |- *.
    rewrite (ST W1 (OSolver r) eq_refl eq_refl eq_refl) in E2 |- *.
    rewrite (ST W1 (OConstruct j k r) eq_refl eq_refl eq_refl).
    cbn [step out_map sets_solver] in E2 |- *.
    assert (EC : construct j k r (view K a (vm W1)) = Some (set_ctl (view K a (vm W1)) (lmpc_default (match m_is (mctl (vm W) a) with None => None | Some _ => Some (IST mempty qempty eempty eempty) end) r)))
      by (rewrite EK; destruct (m_is (mctl (vm W) a)); reflexivity).
    rewrite EC. cbn [of_opt out_map]. clear EC.
    set (A1 := VWorld (put a (vm W1) (set_ctl (view K a (vm W1)) (set_sol (ctl (view K a (vm W1))) r))) (upd (vsol W1) a true)) in *.
    set (B1 := VWorld (put a (vm W1) (set_ctl (view K a (vm W1)) (lmpc_default _ r))) (upd (vsol W1) a true)).
    assert (MA : mctl (vm A1) a = set_sol l r) by (cbn; unfold upd; rewrite !Nat.eqb_refl; reflexivity).
    assert (MB : mctl (vm B1) a = lmpc_default (match m_is (mctl (vm W) a) with None => None | Some _ => Some (IST mempty qempty eempty eempty) end) r) by (cbn; unfold upd; rewrite !Nat.eqb_refl; reflexivity).
    assert (OO : same_objects (vm A1) (vm B1)) by (repeat split).
    assert (CC : forall c, c <> a -> mctl (vm A1) c = mctl (vm B1) c) by (intros c Nc; cbn; unfold upd; rewrite (proj2 (Nat.eqb_neq c a) Nc); reflexivity).
    assert (VV : forall c, vsol A1 c = vsol B1 c) by reflexivity.
    clearbody A1 B1.
    rewrite (ST A1 (OInitController j p) eq_refl eq_refl eq_refl) in E2 |- *.
    rewrite (ST B1 (OInitController j p) eq_refl eq_refl eq_refl).
    assert (OS : wps (view K a (vm A1)) p = wps (view K a (vm B1)) p) by (destruct OO as [O1 _]; cbn; rewrite O1; reflexivity).
    set (n := match m_is (mctl (vm W) a) with None => fullUDim (wps (view K a (vm A1)) p) | Some _ => xDim (wps (view K a (vm A1)) p) + fullUDim (wps (view K a (vm A1)) p) end).
    assert (NA : optSize (set_sol l r) (wps (view K a (vm A1)) p) = n).
    { unfold optSize, n. cbn [set_sol m_is]. destruct (m_is l) eqn:EL, (m_is (mctl (vm W) a)) eqn:EW; try reflexivity; [destruct IS as [_ I2]; discriminate (I2 eq_refl)|destruct IS as [I1 _]; discriminate (I1 eq_refl)]. }
    assert (IA : forall w m, optSize m (wps w p) = n -> ctl w = m -> initializeController j w p =
      (require fits_int n ;; Some (set_ctl w (set_qpm (set_mps m p) (QP (mresize (jmat j 0) (qQ (m_qp m)) n n) (vresize (jvec j 1) (qc (m_qp m)) n) (mzero 0 n) eempty (mzero 0 n) eempty (vconst n no_lower) (vconst n no_upper)))))).
    { intros w m On <-. unfold initializeController, clearConstraintMatrices, updateQPMatrixSize. change (optSize (set_mps (ctl w) p) (wps w p)) with (optSize (ctl w) (wps w p)). rewrite On.
      destruct (fits_int n); cbn [obind]; [|reflexivity]. match goal with |- context [optSize ?m (wps w p)] => change (optSize m (wps w p)) with (optSize (ctl w) (wps w p)) end. rewrite On. reflexivity. }
    cbn [step] in E2 |- *.
    rewrite (IA (view K a (vm A1)) (set_sol l r) NA MA) in E2 |- *.
    assert (NB : optSize (lmpc_default (match m_is (mctl (vm W) a) with None => None | Some _ => Some (IST mempty qempty eempty eempty) end) r) (wps (view K a (vm B1)) p) = n).
    { rewrite <- OS. unfold optSize, n. destruct (m_is (mctl (vm W) a)); reflexivity. }
    rewrite (IA (view K a (vm B1)) _ NB MB).
    clear IA. destruct (fits_int n); cbn [obind of_opt out_map sets_solver] in E2 |- *; [|discriminate E2].
    rewrite !(fun w R r => ST w (OResetX0Cost R r) eq_refl eq_refl eq_refl) in E2 |- *. cbn [step out_map sets_solver] in E2 |- *.
    rewrite !(fun w l u => ST w (OResetX0Bounds l u) eq_refl eq_refl eq_refl) in E2 |- *. cbn [step out_map sets_solver] in E2 |- *.
    injection E2 as E2. eexists. split; [reflexivity|]. split; [|repeat (first [rewrite AR by exact I|rewrite ST by reflexivity; cbn [step out_map sets_solver]]); reflexivity].
    rewrite <- E2. clear E2. split; cbn [vm vsol].
    - destruct OO as [O1 [O2 [O3 [O4 [O5 [O6 O7]]]]]]. repeat split; cbn; auto.
    - intros c Hc Nc. cbn. unfold upd. rewrite (proj2 (Nat.eqb_neq c a) Nc). apply CC. exact Nc.
    - cbn. unfold upd. rewrite !Nat.eqb_refl. unfold resetX0Bounds, resetX0Cost. cbn.
      destruct (m_is l) as [sl|] eqn:EL, (m_is (mctl (vm W) a)) as [sw|] eqn:EW; try (destruct IS as [I1 I2]; try (discriminate (I1 eq_refl)); discriminate (I2 eq_refl));
        cbn; split; cbn -[mresize vresize]; unfold set_qpm; cbn -[mresize vresize]; rewrite ?EL; cbn -[mresize vresize]; rewrite ?resize_rows, ?resize_cols, ?resize_size; auto; lia.
    - intros c Hc. apply VV. }
  destruct X as [W2' [E2' [S2 AN2]]].
  assert (NM2 : forall v, In v h2 -> not_moved a v).
  { intros v Hv. destruct v as [|x y|x y|]; cbn; try exact I; apply NM; [left|right]; exact Hv. }
  destruct (stale_run K a Ha h2 W2 W2' V S2 NM2 RV) as [V' [RV' [SV AV]]].
  exists V'. split; [rewrite vrun_app, RW; cbn [vrun]; rewrite EM, vrun_app, E2'; exact RV'|].
  split.
  { cbn [answers]. rewrite EM. f_equal.
    assert (AP : forall h t w, answers K w (h ++ t) = answers K w h ++ match vrun K w h with Some w' => answers K w' t | None => [] end).
    { induction h as [|v h IH]; intros t w; cbn; [reflexivity|]. destruct (vstep K w v); cbn; rewrite ?IH; reflexivity. }
    rewrite !AP, E2, E2', AN2, AV. reflexivity. }
  pose proof SV as [O B L T]. split; [exact O|]. split; [exact B|]. split; [destruct L; repeat split; assumption|].
  intro e. destruct (stale_step K a Ha V V' (VCall (MCtl a (OSolve e))) SV I) as [P Q].
  destruct (vstep K V (VCall (MCtl a (OSolve e)))) as [V1|x V1|] eqn:EV; [| |exact I].
  - specialize (Q ltac:(discriminate)). destruct (vstep K V' (VCall (MCtl a (OSolve e)))) as [V1'|x' V1'|] eqn:EV'; cbn in P; try contradiction.
    exists V1'. split; [reflexivity|]. split; [exact Q|]. intro OKs.
    destruct (stale_solved K a Ha V V' e V1 SV EV OKs) as [Z [EZ [_ [OZ CZ]]]]. rewrite EV' in EZ. injection EZ as <-. split; [exact OZ|]. intros c Hc. apply CZ. exact Hc.
  - cbn [vstep mstep] in EV. destruct ((a <? K) && uses_solver (OSolve e) && negb (vsol V a)); [discriminate EV|].
    destruct ((a <? K) && negb (is_shared (OSolve e)) && can_write (vm V) (OSolve e)); [|discriminate EV]. cbn [step] in EV. destruct (solve e (view K a (vm V))) as [[? ?]|]; discriminate EV.
Qed.
Print Assumptions C62_reused.

(** Every controller has its solver from the beginning: without moves and [useSolver(nullptr)], a program is defined, and computes
    the same, as one of C57, whose controllers are never without a solver. *)
Theorem C62_without_moves : forall K h,
  match vrun K vworld0 (map VCall h), mrun K mworld0 h with
  | Some V, Some W => vm V = W /\ forall c, vsol V c = true
  | None, None => True
  | _, _ => False
  end.
Proof.
  intros K h.
  assert (X : forall h V W, vm V = W -> (forall c, vsol V c = true) ->
    match vrun K V (map VCall h), mrun K W h with
    | Some V, Some W => vm V = W /\ forall c, vsol V c = true
    | None, None => True
    | _, _ => False
    end).
  { clear h. induction h as [|o h IH]; intros V W <- S; cbn [map vrun mrun]; [split; [reflexivity|exact S]|].
    destruct o as [o|c o]; cbn [vstep].
    - destruct (mstep K (vm V) (MShared o)) as [x|e x|]; cbn [out_map]; try exact I; apply IH; try reflexivity; exact S.
    - rewrite (S c). rewrite Bool.andb_false_r.
      destruct (mstep K (vm V) (MCtl c o)) as [x|e x|]; cbn [out_map]; try exact I; apply IH; try reflexivity; cbn [vsol];
        intro k; (destruct (sets_solver o); [unfold upd; destruct (Nat.eqb k c); [reflexivity|]|]); apply S. }
  apply X; reflexivity.
Qed.
Print Assumptions C62_without_moves.

(** ** Examples: controller 0, with a constraint and a cost, solves and is moved to 1, which solves; then 0 is used again *)
Definition ex62 : list vop :=
  map VCall [MShared (OPs 0 (PSystem (mlit [[1]]%Z) (mlit [[1]]%Z) (vlit [0]%Z) (vlit [0]%Z) 1));
   MCtl 0 (OConstruct j0 (CLMPCps 0) qempty);
   MShared (ONewCon (DTraj (mlit [[1]]%Z) (elit [fin 1]) true)); MShared (ONewCost (DTargetC (mlit [[1]]%Z) (vlit [2]%Z)));
   MCtl 0 (OAddCost j0 0); MCtl 0 (OAddCon j0 0); MCtl 0 (OSolve (env_certs [cert56 1]))].
Definition ex62s : list vop := [VCall (MCtl 1 (OSolve (env_certs [cert56 1])))].
Example C62_example : exists W V,
  vrun 2 vworld0 ex62 = Some W /\ is_move W 0 1 (VMoveNew 0 1) /\ is_move W 0 1 (VMoveAssign 0 1) /\ without 0 ex62s /\
  answers 2 W (VMoveNew 0 1 :: ex62s) = [Returned; Solved true] /\
  vrun 2 vworld0 (ex62 ++ VMoveNew 0 1 :: ex62s) = Some V /\
  spC (mctl (vm V) 1) = [0] /\ spCost (mctl (vm V) 1) = [0] /\ spCost (mctl (vm V) 0) = [] /\ vget (m_ctrl (mctl (vm V) 1)) 0 = qz 1.
Proof.
  assert (C : match vrun 2 vworld0 ex62 with
    | Some W => same_class (mctl (vm W) 0) (mctl (vm W) 1) && match answers 2 W (VMoveNew 0 1 :: ex62s) with [Returned; Solved true] => true | _ => false end
    | None => false end = true) by (vm_compute; reflexivity).
  assert (D : match vrun 2 vworld0 (ex62 ++ VMoveNew 0 1 :: ex62s) with
    | Some V => match spC (mctl (vm V) 1), spCost (mctl (vm V) 1), spCost (mctl (vm V) 0) with [0], [0], [] => true | _, _, _ => false end && qeqb (vget (m_ctrl (mctl (vm V) 1)) 0) (qz 1)
    | None => false end = true) by (vm_compute; reflexivity).
  destruct (vrun 2 vworld0 ex62) as [W|]; [|discriminate C]. destruct (vrun 2 vworld0 (ex62 ++ VMoveNew 0 1 :: ex62s)) as [V|]; [|discriminate D].
  exists W, V. apply andb_prop in C as [C1 C2]. apply andb_prop in D as [D1 D2]. apply qeqb_ok in D2.
  split; [reflexivity|]. split; [left; reflexivity|]. split; [right; split; [reflexivity|revert C1; unfold same_class; destruct (m_is (mctl (vm W) 0)), (m_is (mctl (vm W) 1)); intro C1; split; congruence]|].
  split; [intros v [<-|[]]; reflexivity|].
  split; [destruct (answers 2 W (VMoveNew 0 1 :: ex62s)) as [|[| |] [|[|[]|] []]]; try discriminate C2; reflexivity|]. split; [reflexivity|].
  destruct (spC (mctl (vm V) 1)) as [|[|] []]; try discriminate D1. destruct (spCost (mctl (vm V) 1)) as [|[|] []]; try discriminate D1. destruct (spCost (mctl (vm V) 0)); [|discriminate D1].
  repeat split. exact D2.
Qed.

Definition again62 : list op := again j0 qempty 0 mempty qempty eempty eempty.
Definition ex62r : list vop := map VCall [MShared (ONewCost (DTargetC (mlit [[1]]%Z) (vlit [2]%Z))); MCtl 0 (OAddCost j0 1)].
Definition env62 : senv := env_certs [Cert [(qz 2 / (qz 1 + q1em6))%Qc] [] [] [] [((qz 1 + q1em6)%Qc, [qz 1])]].
(** the numbers of rows of before the move are seen until the next solve; the solve itself is that of a new controller *)
Theorem C62_stale_counts : exists h1 mv h2 e W V V1,
  vrun 2 vworld0 h1 = Some W /\ is_move W 0 1 mv /\ not_moved_again 0 h2 /\ m_is (mctl (vm W) 0) = None /\
  vrun 2 vworld0 (h1 ++ mv :: on 0 (again j0 qempty 0 mempty qempty eempty eempty) ++ h2) = Some V /\
  spC (mctl (vm V) 0) = [] /\ nrIneq (mctl (vm V) 0) = 2 /\
  vstep 2 V (VCall (MCtl 0 (OSolve e))) = Ok V1 /\ answer1 2 V (VCall (MCtl 0 (OSolve e))) = Solved true /\
  nrIneq (mctl (vm V1) 0) = 0 /\ vget (m_ctrl (mctl (vm V1) 0)) 0 = (qz 2 / (qz 1 + q1em6))%Qc.
Proof.
  exists ex62, (VMoveNew 0 1), ex62r, env62.
  assert (C : match vrun 2 vworld0 ex62 with Some W => match m_is (mctl (vm W) 0) with None => true | _ => false end | None => false end = true) by (vm_compute; reflexivity).
  assert (D : match vrun 2 vworld0 (ex62 ++ VMoveNew 0 1 :: on 0 again62 ++ ex62r) with
    | Some V => match spC (mctl (vm V) 0) with [] => true | _ => false end && Nat.eqb (nrIneq (mctl (vm V) 0)) 2 &&
        match answer1 2 V (VCall (MCtl 0 (OSolve env62))) with Solved true => true | _ => false end &&
        match vstep 2 V (VCall (MCtl 0 (OSolve env62))) with
        | Ok V1 => Nat.eqb (nrIneq (mctl (vm V1) 0)) 0 && qeqb (vget (m_ctrl (mctl (vm V1) 0)) 0) (qz 2 / (qz 1 + q1em6))%Qc | _ => false end
    | None => false end = true) by (vm_compute; reflexivity).
  destruct (vrun 2 vworld0 ex62) as [W|] eqn:RW; [|discriminate C]. unfold again62 in D.
  destruct (vrun 2 vworld0 (ex62 ++ VMoveNew 0 1 :: on 0 (again j0 qempty 0 mempty qempty eempty eempty) ++ ex62r)) as [V|] eqn:RV; [|discriminate D].
  apply andb_prop in D as [D D4]. apply andb_prop in D as [D D3]. apply andb_prop in D as [D1 D2].
  destruct (vstep 2 V (VCall (MCtl 0 (OSolve env62)))) as [V1| |] eqn:EV; try discriminate D4. apply andb_prop in D4 as [D4 D5].
  exists W, V, V1. split; [reflexivity|]. split; [left; reflexivity|].
  split; [intros x y [H|H]; cbn in H; destruct H as [H|[H|[]]]; discriminate H|].
  split; [destruct (m_is (mctl (vm W) 0)); [discriminate C|reflexivity]|]. split; [reflexivity|].
  split; [destruct (spC (mctl (vm V) 0)); [reflexivity|discriminate D1]|]. split; [apply Nat.eqb_eq; exact D2|]. split; [exact EV|].
  split; [destruct (answer1 2 V (VCall (MCtl 0 (OSolve env62)))) as [|[]|]; try discriminate D3; reflexivity|].
  split; [apply Nat.eqb_eq; exact D4|apply qeqb_ok; exact D5].
Qed.
Print Assumptions C62_stale_counts.
