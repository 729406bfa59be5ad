(** MoveProofs.v -- the names of the controllers do not matter. *)
From Coq Require Import Permutation.
From Verif Require Import Base Eigen Preview AutoSpan Constraints Costs Controller Controllers SpecSharing Sharing Moves SpecMoves.

Definition every : nat -> bool := fun _ => true.
Lemma lists_every m : lists_in every every m. Proof. repeat split. Qed.

(** ** Sums over the controllers *)
Lemma others_ge K c f : K <= c -> others K c f = list_sum (map f (seq 0 K)).
Proof.
  induction K as [|k IH]; intro H; [reflexivity|]. rewrite seq_S, map_app, list_sum_app. cbn [others plus map list_sum fold_right]. rewrite IH by lia.
  destruct (Nat.eqb_spec k c) as [E|E]; lia.
Qed.
Lemma others_total K c f : c < K -> others K c f + f c = list_sum (map f (seq 0 K)).
Proof.
  induction K as [|k IH]; intro H; [lia|]. rewrite seq_S, map_app, list_sum_app. cbn [others plus map list_sum fold_right].
  destruct (Nat.eqb_spec k c) as [->|E]; [rewrite others_ge by lia; lia|]. rewrite <- IH by lia. lia.
Qed.
Lemma list_sum_perm l l' : Permutation l l' -> list_sum l = list_sum l'.
Proof. induction 1; unfold list_sum in *; cbn; lia. Qed.

Section Rename.
Variables (K : nat) (s : nat -> nat) (dead : nat -> bool).
Hypothesis Sinv : forall c, s (s c) = c.
Hypothesis Sin : forall c, c < K -> s c < K.

Lemma others_rename f g c : (forall k, k < K -> f k = g (s k)) -> c < K -> others K c f = others K (s c) g.
Proof using Sinv Sin.
  intros E Hc. pose proof (others_total K c f Hc) as A. pose proof (others_total K (s c) g (Sin c Hc)) as B. rewrite (E c Hc) in A.
  assert (X : list_sum (map f (seq 0 K)) = list_sum (map g (seq 0 K))); [|lia].
  transitivity (list_sum (map g (map s (seq 0 K)))).
  - f_equal. rewrite map_map. apply map_ext_in. intros k Hk. apply in_seq in Hk. apply E. lia.
  - apply list_sum_perm, Permutation_map. apply NoDup_Permutation.
    + apply FinFun.Injective_map_NoDup; [|apply seq_NoDup]. intros x y H. rewrite <- (Sinv x), <- (Sinv y), H. reflexivity.
    + apply seq_NoDup.
    + intro x. rewrite in_map_iff, in_seq. split.
      * intros [y [<- H]]. apply in_seq in H. specialize (Sin y). lia.
      * intro H. exists (s x). split; [apply Sinv|]. apply in_seq. specialize (Sin x). lia.
Qed.

Definition no_lists (m : lmpc) : Prop := spC m = [] /\ spEq m = [] /\ spIneq m = [] /\ spB m = [] /\ spCost m = [].
Record vsim (W W' : vworld) : Prop := {
  vs_obj : same_objects (vm W) (vm W');
  vs_ctl : forall c, c < K -> dead c = false -> mctl (vm W) c = mctl (vm W') (s c) /\ vsol W c = vsol W' (s c);
  vs_dead : forall c, c < K -> dead c = true -> no_lists (mctl (vm W) c) /\ no_lists (mctl (vm W') (s c))
}.
Lemma held_con_none m i : no_lists m -> held_con m i = 0.
Proof using. intros [A [B [C [D _]]]]. unfold held_con. rewrite A, B, C, D. reflexivity. Qed.
Lemma held_cost_none m i : no_lists m -> held_cost m i = 0.
Proof using. intros [_ [_ [_ [_ A]]]]. unfold held_cost. rewrite A. reflexivity. Qed.
Lemma vsim_view W W' c : vsim W W' -> c < K -> dead c = false -> agree every every (view K c (vm W)) (view K (s c) (vm W')).
Proof using Sinv Sin.
  intros [[A1 [A2 [A3 [A4 [A5 [A6 A7]]]]]] B D] Hc Dc.
  assert (HC : forall i k, k < K -> held_con (mctl (vm W) k) i = held_con (mctl (vm W') (s k)) i).
  { intros i k Hk. destruct (dead k) eqn:E; [|destruct (B k Hk E) as [-> _]; reflexivity]. destruct (D k Hk E) as [X Y]. rewrite (held_con_none _ i X), (held_con_none _ i Y). reflexivity. }
  assert (HK : forall i k, k < K -> held_cost (mctl (vm W) k) i = held_cost (mctl (vm W') (s k)) i).
  { intros i k Hk. destruct (dead k) eqn:E; [|destruct (B k Hk E) as [-> _]; reflexivity]. destruct (D k Hk E) as [X Y]. rewrite (held_cost_none _ i X), (held_cost_none _ i Y). reflexivity. }
  split; cbn; try assumption.
  - intros i _. apply A4.
  - intros i _. rewrite A5. f_equal. apply (others_rename (fun a => held_con (mctl (vm W) a) i) (fun a => held_con (mctl (vm W') a) i) c (HC i) Hc).
  - intros i _. apply A6.
  - intros i _. rewrite A7. f_equal. apply (others_rename (fun a => held_cost (mctl (vm W) a) i) (fun a => held_cost (mctl (vm W') a) i) c (HK i) Hc).
  - apply (B c Hc Dc).
Qed.
Lemma s_eqb c d : Nat.eqb (s c) (s d) = Nat.eqb c d.
Proof using Sinv. destruct (Nat.eqb_spec c d) as [->|E]; [apply Nat.eqb_refl|]. apply Nat.eqb_neq. intro H. apply E. rewrite <- (Sinv c), <- (Sinv d), H. reflexivity. Qed.
Lemma s_ltb c : (s c <? K) = (c <? K).
Proof using Sinv Sin.
  destruct (Nat.ltb_spec c K) as [H|H]; [apply Nat.ltb_lt; auto|]. apply Nat.ltb_ge. destruct (Nat.le_gt_cases K (s c)) as [L|L]; [exact L|].
  apply Sin in L. rewrite Sinv in L. lia.
Qed.
Lemma upd_s {A} (f g : nat -> A) d x c : f c = g (s c) -> upd f d x c = upd g (s d) x (s c).
Proof using Sinv. intro H. unfold upd. rewrite s_eqb. destruct (Nat.eqb c d); [reflexivity|exact H]. Qed.

(** a call on a controller *)
Lemma vsim_put W W' c v v' t t' : vsim W W' -> c < K -> dead c = false -> agree every every v v' -> t c = t' (s c) ->
  (forall k, k <> c -> t k = vsol W k /\ t' (s k) = vsol W' (s k)) ->
  vsim (VWorld (put c (vm W) v) t) (VWorld (put (s c) (vm W') v') t').
Proof using Sinv.
  intros [[A1 [A2 [A3 [A4 [A5 [A6 A7]]]]]] B D] Hc Dc [E1 E2 E3 E4 E5 E6 E7 E8] T T'. split; cbn.
  - repeat split; cbn; auto.
  - intros k Hk Dk. destruct (Nat.eq_dec k c) as [->|N].
    + split; [|exact T]. unfold upd. rewrite !Nat.eqb_refl. exact E8.
    + destruct (B k Hk Dk) as [B1 B2]. destruct (T' k N) as [-> ->]. split; [|exact B2]. unfold upd. rewrite s_eqb, (proj2 (Nat.eqb_neq k c) N). exact B1.
  - intros k Hk Dk. assert (N : k <> c) by (intros ->; congruence). unfold upd. rewrite s_eqb, (proj2 (Nat.eqb_neq k c) N). apply (D k Hk Dk).
Qed.
Lemma can_write_same W W' o : same_objects W W' -> can_write W o = can_write W' o.
Proof using. intros [_ [_ [_ [_ [A [_ B]]]]]]. destruct o; cbn; try reflexivity; first [rewrite A|rewrite B]; reflexivity. Qed.
Lemma vsim_base W W' : vsim W W' -> agree every every (base (vm W)) (base (vm W')).
Proof using. intros [[A1 [A2 [A3 [A4 [A5 [A6 A7]]]]]] B D]. split; cbn; auto. Qed.

Lemma vsim_move W W' a b l l' : vsim W W' -> a < K -> b < K -> dead a = false -> dead b = false -> l = l' ->
  vsim (move_to W a b l) (move_to W' (s a) (s b) l').
Proof using Sinv.
  intros [A B D] Ha Hb Da Db <-. split; cbn.
  - exact A.
  - intros c Hc Dc. destruct (B c Hc Dc) as [B1 B2]. destruct (B a Ha Da) as [B3 B4]. rewrite B3, B4. split; apply upd_s; apply upd_s; assumption.
  - intros c Hc Dc. unfold upd. rewrite !s_eqb. destruct (Nat.eqb_spec c a) as [->|_]; [congruence|]. destruct (Nat.eqb_spec c b) as [->|_]; [congruence|]. apply (D c Hc Dc).
Qed.

Definition alive (v : vop) : Prop := forall c, dead c = true -> mentions c v = false.
Lemma alive_ctl c o : alive (VCall (MCtl c o)) -> dead c = false.
Proof using. intro H. destruct (dead c) eqn:E; [|reflexivity]. specialize (H c E). cbn in H. rewrite Nat.eqb_refl in H. discriminate H. Qed.
Lemma vsim_step W W' v : vsim W W' -> alive v ->
  out_agree vsim (vstep K W v) (vstep K W' (rename1 s v)) /\ answer1 K W v = answer1 K W' (rename1 s v).
Proof using Sinv Sin.
  intros S AL. pose proof S as [O B D].
  destruct v as [[o|c o]|a b|a b|c]; cbn [rename1].
  - (* shared *)
    assert (X : out_agree vsim (vstep K W (VCall (MShared o))) (vstep K W' (VCall (MShared o)))).
    { cbn [vstep mstep]. destruct (is_shared o) eqn:SH; [|cbn; split; cbn; assumption].
      pose proof (shared_local every every _ _ o SH ltac:(destruct o; reflexivity) (vsim_base W W' S)) as L.
      assert (Z : forall x y, agree every every x y -> vsim (VWorld (put_shared (vm W) x) (vsol W)) (VWorld (put_shared (vm W') y) (vsol W'))).
      { intros x y [E1 E2 E3 E4 E5 E6 E7 E8]. split; cbn; [repeat split; cbn; auto|exact B|exact D]. }
      destruct (step (base (vm W)) o) as [x|e x|], (step (base (vm W')) o) as [y|e' y|]; cbn in L |- *; try contradiction; [|split|]; try exact I; try apply L; apply Z, L. }
    split; [exact X|]. unfold answer1. destruct (vstep K W _), (vstep K W' _); cbn in X; try contradiction; try reflexivity. destruct X as [-> _]. reflexivity.
  - (* a controller *)
    pose proof (alive_ctl c o AL) as Dc.
    destruct (Nat.ltb_spec c K) as [Hc|Hc].
    + pose proof (vsim_view W W' c S Hc Dc) as VA. destruct (B c Hc Dc) as [B1 B2].
      assert (X : out_agree vsim (vstep K W (VCall (MCtl c o))) (vstep K W' (VCall (MCtl (s c) o)))).
      { cbn [vstep mstep]. rewrite s_ltb, (proj2 (Nat.ltb_lt c K) Hc). cbn [andb]. rewrite B2.
        destruct (uses_solver o && negb (vsol W' (s c))); [exact I|].
        rewrite <- (can_write_same (vm W) (vm W') o O).
        assert (T : forall v v', agree every every v v' ->
          vsim (VWorld (put c (vm W) v) (if sets_solver o then upd (vsol W) c true else vsol W))
               (VWorld (put (s c) (vm W') v') (if sets_solver o then upd (vsol W') (s c) true else vsol W'))).
        { intros v v' AG. apply vsim_put; try assumption; destruct (sets_solver o).
          - unfold upd. rewrite !Nat.eqb_refl. reflexivity.
          - exact B2.
          - intros k N. unfold upd. rewrite s_eqb, (proj2 (Nat.eqb_neq k c) N). auto.
          - auto. }
        destruct (negb (is_shared o)) eqn:SH; cbn [andb].
        2: { cbn. destruct (sets_solver o) eqn:SS; [destruct o; discriminate|]. split; cbn; assumption. }
        apply Bool.negb_true_iff in SH.
        destruct (can_write (vm W) o).
        2: { cbn. destruct (sets_solver o); [|split; cbn; assumption]. split; cbn; [assumption| |assumption].
             intros k Hk Dk. destruct (B k Hk Dk) as [? ?]. split; [assumption|apply upd_s; assumption]. }
        pose proof (step_local every every _ _ o (conj VA (lists_every _)) SH ltac:(destruct o; reflexivity)) as L.
        destruct (step (view K c (vm W)) o) as [x|e x|], (step (view K (s c) (vm W')) o) as [y|e' y|]; cbn in L |- *; try contradiction; try exact I.
        - apply T, L.
        - split; [apply L|apply T, L]. }
      split; [exact X|]. unfold answer1. cbn [rename1].
      assert (Y : match o with OSolve e => if c <? K then match solve e (view K c (vm W)) with Some (b, _) => Solved b | None => Returned end else Returned | _ => Returned end =
                  match o with OSolve e => if s c <? K then match solve e (view K (s c) (vm W')) with Some (b, _) => Solved b | None => Returned end else Returned | _ => Returned end).
      { destruct o; try reflexivity. rewrite s_ltb, (proj2 (Nat.ltb_lt c K) Hc).
        pose proof (solve_local every every e _ _ (conj VA (lists_every _))) as L.
        destruct (solve e (view K c (vm W))) as [[b x]|], (solve e (view K (s c) (vm W'))) as [[b' y]|]; cbn in L; try contradiction; [destruct L as [-> _]|]; reflexivity. }
      destruct (vstep K W _), (vstep K W' _); cbn in X; try contradiction; try exact Y. destruct X as [-> _]. reflexivity.
    + assert (X : out_agree vsim (vstep K W (VCall (MCtl c o))) (vstep K W' (VCall (MCtl (s c) o)))).
      { cbn [vstep mstep]. rewrite s_ltb, (proj2 (Nat.ltb_ge c K) Hc). cbn. split; cbn; [assumption| |assumption].
        intros k Hk Dk. destruct (B k Hk Dk) as [? ?]. split; [assumption|]. destruct (sets_solver o); [|assumption]. apply upd_s. assumption. }
      split; [exact X|]. unfold answer1. cbn [rename1]. rewrite s_ltb, (proj2 (Nat.ltb_ge c K) Hc).
      destruct (vstep K W _), (vstep K W' _); cbn in X; try contradiction; try reflexivity; [destruct X as [-> _]; reflexivity].
  - (* move construction *)
    unfold answer1. cbn [vstep]. rewrite !s_ltb, s_eqb. destruct ((a <? K) && (b <? K) && negb (Nat.eqb a b)) eqn:E; [|split; [exact S|reflexivity]]. split; [|reflexivity].
    apply andb_prop in E as [E _]. apply andb_prop in E as [Ea Eb]. apply Nat.ltb_lt in Ea, Eb.
    assert (Da : dead a = false) by (destruct (dead a) eqn:Q; [specialize (AL a Q); cbn in AL; rewrite Nat.eqb_refl in AL; discriminate AL|reflexivity]).
    assert (Db : dead b = false) by (destruct (dead b) eqn:Q; [specialize (AL b Q); cbn in AL; rewrite Nat.eqb_refl, Bool.orb_true_r in AL; discriminate AL|reflexivity]).
    apply vsim_move; try assumption. destruct (B a Ea Da) as [-> _]. reflexivity.
  - (* move assignment *)
    unfold answer1. cbn [vstep]. rewrite !s_ltb, s_eqb. destruct ((a <? K) && (b <? K) && negb (Nat.eqb a b)) eqn:E; cbn [andb]; [|split; [exact S|reflexivity]].
    apply andb_prop in E as [E _]. apply andb_prop in E as [Ea Eb]. apply Nat.ltb_lt in Ea, Eb.
    assert (Da : dead a = false) by (destruct (dead a) eqn:Q; [specialize (AL a Q); cbn in AL; rewrite Nat.eqb_refl in AL; discriminate AL|reflexivity]).
    assert (Db : dead b = false) by (destruct (dead b) eqn:Q; [specialize (AL b Q); cbn in AL; rewrite Nat.eqb_refl, Bool.orb_true_r in AL; discriminate AL|reflexivity]).
    destruct (B a Ea Da) as [Xa _]. destruct (B b Eb Db) as [Xb _]. rewrite Xa, Xb.
    destruct (same_class _ _); [|split; [exact S|reflexivity]]. split; [|reflexivity]. apply vsim_move; auto.
  - (* useSolver(nullptr) *)
    assert (Dc : dead c = false) by (destruct (dead c) eqn:Q; [specialize (AL c Q); cbn in AL; rewrite Nat.eqb_refl in AL; discriminate AL|reflexivity]).
    unfold answer1. cbn [vstep]. rewrite s_ltb. destruct (c <? K) eqn:E; [|split; [exact S|reflexivity]]. split; [|reflexivity]. split; cbn; [assumption| |assumption].
    intros k Hk Dk. destruct (B k Hk Dk) as [? ?]. split; [assumption|apply upd_s; assumption].
Qed.
Lemma vsim_run h : forall W W', vsim W W' -> (forall v, In v h -> alive v) ->
  match vrun K W h, vrun K W' (map (rename1 s) h) with Some V, Some V' => vsim V V' | None, None => True | _, _ => False end /\
  answers K W h = answers K W' (map (rename1 s) h).
Proof using Sinv Sin.
  induction h as [|v t IH]; intros W W' S AL; [split; [exact S|reflexivity]|]. cbn [map vrun answers].
  destruct (vsim_step W W' v S (AL v (or_introl eq_refl))) as [X Y]. rewrite Y.
  assert (AT : forall u, In u t -> alive u) by (intros u Hu; apply AL; right; exact Hu).
  destruct (vstep K W v) as [x|e x|], (vstep K W' (rename1 s v)) as [y|e' y|]; cbn in X; try contradiction; [| |split; [exact I|reflexivity]].
  - destruct (IH x y X AT) as [P Q]. rewrite Q. split; [exact P|reflexivity].
  - destruct X as [_ X]. destruct (IH x y X AT) as [P Q]. rewrite Q. split; [exact P|reflexivity].
Qed.
End Rename.
