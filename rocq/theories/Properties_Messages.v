(** Properties_Messages.v -- C48: names and error messages. *)
From Coq Require Import String Ascii DecimalString DecimalNat DecimalZ.
From Verif Require Import Base Eigen Preview SpecApi AutoSpan Constraints SpecConstraints Costs SpecCosts PreviewProofs Checkers Messages SpecMessages.
Local Open Scope string_scope.

(** ** Strings *)
Lemma app_assoc_s (a b c : string) : (a ++ b) ++ c = a ++ (b ++ c).
Proof. induction a as [|x a IH]; cbn; [reflexivity|]. rewrite IH. reflexivity. Qed.
Lemma app_nil_s (a : string) : a ++ "" = a.
Proof. induction a as [|x a IH]; cbn; [reflexivity|]. rewrite IH. reflexivity. Qed.
Lemma app_inv_s (a b c : string) : a ++ b = a ++ c -> b = c.
Proof. induction a as [|x a IH]; cbn; intro H; [exact H|]. injection H as H. auto. Qed.
Lemma length_app_s (a b : string) : String.length (a ++ b) = String.length a + String.length b.
Proof. induction a as [|x a IH]; cbn; [reflexivity|]. rewrite IH. reflexivity. Qed.
Lemma contains_refl s : contains s s.
Proof. exists "", "". cbn. rewrite app_nil_s. reflexivity. Qed.
Lemma contains_l m s t : contains m t -> contains (s ++ m) t.
Proof. intros [a [b ->]]. exists (s ++ a), b. rewrite app_assoc_s. reflexivity. Qed.
Lemma contains_r m s t : contains m t -> contains (m ++ s) t.
Proof. intros [a [b ->]]. exists a, (b ++ s). rewrite !app_assoc_s. reflexivity. Qed.

Fixpoint prefixb (s m : string) : bool :=
  match s, m with
  | EmptyString, _ => true
  | String a s', String b m' => Ascii.eqb a b && prefixb s' m'
  | _, _ => false
  end.
Fixpoint containsb (m s : string) : bool :=
  prefixb s m || match m with EmptyString => false | String _ m' => containsb m' s end.
Lemma prefixb_app s t : prefixb s (s ++ t) = true.
Proof. induction s as [|a s IH]; cbn; [reflexivity|]. rewrite Ascii.eqb_refl. exact IH. Qed.
Lemma contains_b m s : contains m s -> containsb m s = true.
Proof.
  intros [a [b ->]]. induction a as [|x a IH]; cbn [append].
  - destruct (s ++ b) eqn:E; cbn [containsb]; rewrite <- E, prefixb_app; reflexivity.
  - cbn [containsb]. rewrite IH. apply orb_true_r.
Qed.
Lemma not_contains m s : containsb m s = false -> ~ contains m s.
Proof. intros H C. apply contains_b in C. congruence. Qed.

Ltac str := cbn [append]; repeat (rewrite app_assoc_s; cbn [append]); reflexivity.
(** ** Decimal numbers *)
Definition no_space (s : string) : Prop := forall a b, s <> a ++ " " ++ b.
Lemma dec_digits u a : ~ contains (NilEmpty.string_of_uint u) (String " " a).
Proof.
  intros [p [q H]]. revert p H. induction u; intros p H; cbn in H; [destruct p; discriminate| | | | | | | | | |];
    (destruct p as [|x p]; cbn in H; [discriminate|]; injection H as _ H; exact (IHu p H)).
Qed.
Lemma dec_space n a : ~ contains (dec n) (String " " a).
Proof.
  unfold dec, NilZero.string_of_uint. destruct (Nat.to_uint n) eqn:E; [|apply dec_digits..].
  intros [p [q H]]. destruct p as [|x [|y p]]; discriminate.
Qed.
Lemma dec_inj a b : dec a = dec b -> a = b.
Proof.
  unfold dec. intro H. apply (f_equal NilZero.uint_of_string) in H. rewrite !NilZero.usu in H.
  - injection H as H. apply (f_equal Nat.of_uint) in H. rewrite !DecimalNat.Unsigned.of_to in H. exact H.
  - destruct (Nat.to_uint b) eqn:E; try discriminate. pose proof (f_equal Nat.of_uint E) as Z. rewrite DecimalNat.Unsigned.of_to in Z. cbn in Z. subst b. discriminate E.
  - destruct (Nat.to_uint a) eqn:E; try discriminate. pose proof (f_equal Nat.of_uint E) as Z. rewrite DecimalNat.Unsigned.of_to in Z. cbn in Z. subst a. discriminate E.
Qed.
(** a number ends at the first character that is no digit *)
Lemma split_space : forall x y s t, (forall a, ~ contains x (String " " a)) -> (forall a, ~ contains y (String " " a)) ->
  x ++ String " " s = y ++ String " " t -> x = y /\ s = t.
Proof.
  induction x as [|c x IH]; intros y s t Hx Hy H; destruct y as [|d y]; cbn in H.
  - injection H as H. auto.
  - injection H as Hd H. exfalso. apply (Hy y). exists "", "". cbn. rewrite app_nil_s, Hd. reflexivity.
  - injection H as Hd H. exfalso. apply (Hx x). exists "", "". cbn. rewrite app_nil_s, Hd. reflexivity.
  - injection H as -> H. destruct (IH y s t) as [-> ->]; try exact H; auto.
    + intros a C. apply (Hx a). apply (contains_l _ (String d "")) in C. exact C.
    + intros a C. apply (Hy a). apply (contains_l _ (String d "")) in C. exact C.
Qed.
Lemma dec_split a b s t : dec a ++ " " ++ s = dec b ++ " " ++ t -> a = b /\ s = t.
Proof. intro H. destruct (split_space (dec a) (dec b) s t (dec_space a) (dec_space b) H) as [E ->]. split; [apply dec_inj; exact E|reflexivity]. Qed.

(** ** The two-operand message *)
Theorem C48_rows_message : forall n1 n2 r1 r2,
  let m := msgOnRows n1 n2 r1 r2 in
  says_rows m n1 r1 /\ says_rows m n2 r2 /\ (forall s1 s2, msgOnRows n1 n2 s1 s2 = m -> s1 = r1 /\ s2 = r2).
Proof.
  intros n1 n2 r1 r2 m. unfold m, msgOnRows, says_rows. split; [|split].
  - do 4 apply contains_l. exists "", (" and " ++ n2 ++ " has " ++ dec r2 ++ " rows."). str.
  - do 8 apply contains_l. exists "", ".". str.
  - intros s1 s2 H. do 6 apply app_inv_s in H.
    destruct (dec_split s1 r1 ("rows and " ++ n2 ++ " has " ++ dec s2 ++ " rows.") ("rows and " ++ n2 ++ " has " ++ dec r2 ++ " rows.") H) as [-> H'].
    split; [reflexivity|]. do 3 apply app_inv_s in H'. destruct (dec_split s2 r2 "rows." "rows." H') as [-> _]. reflexivity.
Qed.

(** ** The message asking for autoSpan: it is written over the beginning of the other one *)
Lemma overwrite_app : forall w i, overwrite (w ++ i) w = w ++ i.
Proof. induction w as [|a w IH]; intro i; cbn; [reflexivity|]. rewrite IH. reflexivity. Qed.
Lemma overwrite_len : forall w p i, String.length p = String.length w -> overwrite (p ++ i) w = w ++ i.
Proof.
  induction w as [|a w IH]; intros p i H; destruct p as [|b p]; try discriminate; cbn; [reflexivity|]. rewrite IH by (cbn in H; lia). reflexivity.
Qed.
Lemma overwrite_keep : forall w p i, String.length w <= String.length p -> exists q, overwrite (p ++ i) w = q ++ i.
Proof.
  induction w as [|a w IH]; intros p i H.
  - exists p. reflexivity.
  - destruct p as [|b p]; [cbn in H; lia|]. cbn [append overwrite]. destruct (IH p i) as [q ->]; [cbn in H; lia|]. exists (String a q). reflexivity.
Qed.
Lemma overwrite_prefix : forall w i, prefixb w (overwrite i w) = true.
Proof. induction w as [|a w IH]; intro i; cbn; [reflexivity|]. rewrite Ascii.eqb_refl. destruct i; apply IH. Qed.
Lemma dec_nonempty n : 1 <= String.length (dec n).
Proof. unfold dec, NilZero.string_of_uint. destruct (Nat.to_uint n); cbn; lia. Qed.

(** for non-empty names the hint and the second size are there *)
Theorem C48_autospan_message_partial : forall n1 n2 r1 r2, n1 <> "" -> n2 <> "" ->
  let m := msgOnRowsAskAutoSpan n1 n2 r1 r2 in
  contains m "autoSpan" /\ says_rows m n2 r2.
Proof.
  intros n1 n2 r1 r2 N1 N2 m. split.
  - unfold m, msgOnRowsAskAutoSpan. set (i := msgOnRows n1 n2 r1 r2).
    assert (P : forall w i, exists b, overwrite i w = w ++ b).
    { induction w as [|a w IH]; intro k; cbn; [eauto|]. destruct k; [destruct (IH "") as [b ->]|destruct (IH k) as [b ->]]; eauto. }
    destruct (P hint i) as [b ->]. exists " Maybe you have forgottent to call ", ("Matrix method?" ++ newline ++ b). reflexivity.
  - unfold m, msgOnRowsAskAutoSpan, msgOnRows, says_rows.
    set (p := n1 ++ " and " ++ n2 ++ " should have same number of rows. " ++ n1 ++ " has " ++ dec r1 ++ " rows and ").
    assert (E : n1 ++ " and " ++ n2 ++ " should have same number of rows. " ++ n1 ++ " has " ++ dec r1 ++ " rows and " ++ n2 ++ " has " ++ dec r2 ++ " rows."
                = p ++ (n2 ++ " has " ++ dec r2 ++ " rows.")) by (unfold p; rewrite !app_assoc_s; reflexivity).
    rewrite E. destruct (overwrite_keep hint p (n2 ++ " has " ++ dec r2 ++ " rows.")) as [q ->].
    + unfold p. rewrite !length_app_s. pose proof (dec_nonempty r1). destruct n1; [congruence|]. destruct n2; [congruence|]. cbn [String.length hint newline append]. lia.
    + apply contains_l. exists "", ".". str.
Qed.
(** with one-letter names (E, f, G, M, N, p) the size of the first operand is overwritten: all sizes with the same
    number of digits, up to 11, give the same message *)
Lemma overwrite_same : forall w p p' i, String.length p = String.length p' -> String.length p <= String.length w -> overwrite (p ++ i) w = overwrite (p' ++ i) w.
Proof.
  induction w as [|a w IH]; intros p p' i E L; destruct p as [|b p], p' as [|b' p']; try discriminate; try (cbn in L; lia); try reflexivity.
  cbn in E, L |- *. rewrite (IH p p') by lia. reflexivity.
Qed.
Theorem C48_first_size_lost : forall a b r1 s1 r2, String.length (dec r1) = String.length (dec s1) -> String.length (dec r1) <= 11 ->
  msgOnRowsAskAutoSpan (String a "") (String b "") r1 r2 = msgOnRowsAskAutoSpan (String a "") (String b "") s1 r2.
Proof.
  intros a b r1 s1 r2 E H. unfold msgOnRowsAskAutoSpan, msgOnRows.
  set (q := String a "" ++ " and " ++ String b "" ++ " should have same number of rows. " ++ String a "" ++ " has ").
  set (t := " rows and " ++ String b "" ++ " has " ++ dec r2 ++ " rows.").
  assert (G : forall r, String a "" ++ " and " ++ String b "" ++ " should have same number of rows. " ++ String a "" ++ " has " ++ dec r ++ t = (q ++ dec r) ++ t)
    by (intro r; unfold q; rewrite !app_assoc_s; reflexivity).
  change (overwrite (String a "" ++ " and " ++ String b "" ++ " should have same number of rows. " ++ String a "" ++ " has " ++ dec r1 ++ t) hint
          = overwrite (String a "" ++ " and " ++ String b "" ++ " should have same number of rows. " ++ String a "" ++ " has " ++ dec s1 ++ t) hint).
  rewrite !G. apply overwrite_same; rewrite !length_app_s; [congruence|]. unfold q. rewrite !length_app_s. cbn [String.length hint newline append]. lia.
Qed.

(** ** Each exception has its message *)
Definition throws {S} (o : outcome S) : Prop := exists e s, o = Throw e s.
Theorem C48_system_throws : forall ps s c b x n, throws (system ps s c b x n) <-> system_what s c b x n <> None.
Proof.
  intros. unfold system, system_what, throws.
  repeat match goal with |- context [if ?t then Throw _ _ else _] => destruct t; [split; [intros _; discriminate|intros _; eauto]|] end.
  cbv zeta. split; [intros [e [q H]]|congruence]. destruct (_ && _) in H; [|discriminate]. destruct (setBlock _ _ _ _ _ _) in H; discriminate.
Qed.
Theorem C48_constraint_throws : forall j ps c, throws (initializeConstraint j ps c) <-> con_what ps c <> None.
Proof.
  intros. unfold initializeConstraint, con_what, throws.
  destruct (ck c); [unfold traj_init|unfold ctrl_init|unfold mixed_init|unfold trajB_init|unfold ctrlB_init]; cbv zeta;
    repeat match goal with
    | |- context [if ?t then Throw _ _ else _] => destruct t; [split; [intros _; discriminate|intros _; eauto]|]
    | |- context [if Nat.eqb ?a ?b && Nat.eqb ?d ?e then _ else _] => destruct (Nat.eqb a b && Nat.eqb d e);
        [split; [intros [x [q H]]; destruct (fits_int _) in H; discriminate|congruence]|]
    | |- context [if Nat.eqb ?a ?b then _ else _] => destruct (Nat.eqb a b);
        [split; [intros [x [q H]]; try destruct (fits_int _) in H; discriminate|congruence]|]
    end; (split; [intros _; discriminate|intros _; eauto]).
Qed.
Theorem C48_cost_throws : forall j ps c, throws (initializeCost j ps c) <-> cost_what ps c <> None.
Proof.
  intros. unfold initializeCost, cost_what, throws.
  destruct (kk c); [unfold trajC_init|unfold targetC_init|unfold ctrlC_init|unfold mixedC_init]; cbv zeta; cbn [kM kN kp k_resize set_qp];
    repeat match goal with
    | |- context [if ?t then Throw _ _ else _] => destruct t; [split; [intros _; discriminate|intros _; eauto]|]
    | |- context [if Nat.eqb ?a ?b && Nat.eqb ?d ?e then _ else _] => destruct (Nat.eqb a b && Nat.eqb d e);
        [split; [intros [x [q H]]; discriminate|congruence]|]
    | |- context [if Nat.eqb ?a ?b then _ else _] => destruct (Nat.eqb a b); [split; [intros [x [q H]]; discriminate|congruence]|]
    end; (split; [intros H; try discriminate; destruct H as [x [q H]]; discriminate|intros H; try congruence; eauto]).
Qed.
Theorem C48_span_throws : forall mat nd ac, throws (spanMatrix mat nd ac) <-> span_what (rows mat) nd <> None.
Proof.
  intros. unfold spanMatrix, span_what, throws. destruct (nd =? _)%Z; [split; [intros [e [s H]]; discriminate|congruence]|].
  destruct (Nat.eqb _ _); [split; [intros [e [s H]]; discriminate|congruence]|].
  destruct (negb _); [split; [intros _; discriminate|intros _; eauto]|]. split; [intros [e [s H]]|congruence].
  destruct (_ || _) in H; [discriminate|]. destruct (for_ _ _ _ _) in H; discriminate.
Qed.
Theorem C48_weights_throws : forall c w, throws (k_weights c w) <-> weights_what c w <> None.
Proof.
  intros. unfold k_weights, weights_what, throws. cbv zeta. destruct (Nat.eqb _ _); [split; [intros [e [s H]]; discriminate|congruence]|].
  destruct (Nat.eqb _ _); [split; [intros [e [s H]]; discriminate|congruence]|].
  destruct (Nat.eqb _ _); [|split; [intros _; discriminate|intros _; eauto]]. split; [intros [e [s H]]|congruence].
  destruct (for_ _ _ _ _) in H; discriminate.
Qed.

(** ** What the messages of the exceptions say *)
(** PreviewSystem: the sizes of the offending operands *)
Theorem C48_system_message_partial : forall s c b x n m, system_what s c b x n = Some m ->
  (vsize x <> rows s -> says_rows m "xInit" (vsize x) /\ says_rows m "state" (rows s)) /\
  (vsize x = rows s -> rows s <> cols s -> contains m "state" /\ contains m ("(" ++ dec (rows s) ++ "-by-" ++ dec (cols s) ++ ")")) /\
  (vsize x = rows s -> rows s = cols s -> vsize x <> rows c -> says_rows m "xInit" (vsize x) /\ says_rows m "control" (rows c)) /\
  (vsize x = rows s -> rows s = cols s -> vsize x = rows c -> vsize x <> vsize b -> says_rows m "xInit" (vsize x) /\ says_rows m "state" (vsize b)).
Proof.
  intros s c b x n m H. unfold system_what in H.
  assert (R : forall n1 n2 r1 r2, says_rows (msgOnRows n1 n2 r1 r2) n1 r1 /\ says_rows (msgOnRows n1 n2 r1 r2) n2 r2).
  { intros. destruct (C48_rows_message n1 n2 r1 r2) as [A [B _]]. auto. }
  destruct (Nat.eqb_spec (vsize x) (rows s)) as [E1|E1]; cbn [negb] in H.
  2:{ injection H as <-. split; [intros _; apply R|]. repeat split; intros; congruence. }
  split; [congruence|]. destruct (Nat.eqb_spec (rows s) (cols s)) as [E2|E2]; cbn [negb] in H.
  2:{ injection H as <-. split; [|split; intros; congruence]. intros _ _. unfold msgOnSquareMat. split.
      - apply contains_r. apply contains_refl.
      - apply contains_l. exists " should be a squared matrix but it is a ", " matrix.". str. }
  split; [congruence|]. destruct (Nat.eqb_spec (vsize x) (rows c)) as [E3|E3]; cbn [negb] in H.
  2:{ injection H as <-. split; [intros; apply R|intros; congruence]. }
  split; [congruence|]. intros _ _ _ E4. destruct (Nat.eqb_spec (vsize x) (vsize b)) as [E5|E5]; [congruence|]. cbn [negb] in H. injection H as <-. apply R.
Qed.
(** a wrong bias is reported under the name of the state matrix *)
Theorem C48_bias_refuted : exists s c b x n m, rows s = cols s /\ rows c = rows s /\ vsize x = rows s /\ vsize b <> rows s /\ (1 <= n)%Z /\
  system_what s c b x n = Some m /\ ~ contains m "bias" /\ says_rows m "state" (vsize b) /\ rows s <> vsize b.
Proof.
  exists exA, exB, (vlit [1; 2; 3]%Z), exx0, 3%Z. eexists. repeat (split; [first [reflexivity|discriminate|lia]|]).
  split; [apply not_contains; reflexivity|]. split; [|discriminate].
  exists "xInit and state should have same number of rows. xInit has 2 rows and ", ".". reflexivity.
Qed.

(** constraints and costs: columns *)
Definition says_dims (m n : string) (a b k : nat) : Prop := contains m (n ++ " should have " ++ dec a ++ " or " ++ dec b ++ " cols") /\ says_cols m n k.
Lemma msgX_says n k ps : says_dims (msgOnColsOnPSXDim n k ps) n (xDim ps) (fullXDim ps) k.
Proof.
  unfold says_dims, says_cols, msgOnColsOnPSXDim. split.
  - exists "", (". But " ++ n ++ " has " ++ dec k ++ " cols."). str.
  - do 6 apply contains_l. exists "", ".". str.
Qed.
Lemma msgU_says n k ps : says_dims (msgOnColsOnPSUDim n k ps) n (uDim ps) (fullUDim ps) k.
Proof.
  unfold says_dims, says_cols, msgOnColsOnPSUDim. split.
  - exists "", (". But " ++ n ++ " has " ++ dec k ++ " cols."). str.
  - do 6 apply contains_l. exists "", ".". str.
Qed.
Lemma msgXU_says n1 n2 k1 k2 ps : says_cols (msgOnColsOnPSXUDim n1 n2 k1 k2 ps) n1 k1 /\ says_cols (msgOnColsOnPSXUDim n1 n2 k1 k2 ps) n2 k2.
Proof.
  unfold says_cols, msgOnColsOnPSXUDim. split.
  - do 12 apply contains_l. exists "", (" and " ++ n2 ++ " has " ++ dec k2 ++ " cols."). str.
  - do 16 apply contains_l. exists "", ".". str.
Qed.
Lemma ask_says n1 n2 r1 r2 : n1 <> "" -> n2 <> "" -> contains (msgOnRowsAskAutoSpan n1 n2 r1 r2) "autoSpan" /\ says_rows (msgOnRowsAskAutoSpan n1 n2 r1 r2) n2 r2.
Proof. intros. apply C48_autospan_message_partial; assumption. Qed.
Ltac ask := apply ask_says; discriminate.
(** every rejected constraint: what the message of the exception says *)
Theorem C48_constraint_message_partial : forall ps c m, fresh_constr c -> con_what ps c = Some m ->
  match ck c with
  | KTraj => (rows (cE c) <> vsize (cf c) -> contains m "autoSpan" /\ says_rows m "f" (vsize (cf c))) /\
             (rows (cE c) = vsize (cf c) -> says_dims m "E" (xDim ps) (fullXDim ps) (cols (cE c)))
  | KCtrl => (rows (cG c) <> vsize (cf c) -> contains m "autoSpan" /\ says_rows m "f" (vsize (cf c))) /\
             (rows (cG c) = vsize (cf c) -> says_dims m "G" (uDim ps) (fullUDim ps) (cols (cG c)))
  | KMixed => (rows (cE c) <> vsize (cf c) \/ rows (cG c) <> vsize (cf c) -> contains m "autoSpan" /\ says_rows m "f" (vsize (cf c))) /\
              (rows (cE c) = vsize (cf c) -> rows (cG c) = vsize (cf c) -> says_cols m "E" (cols (cE c)) /\ says_cols m "G" (cols (cG c)))
  | KTrajB | KCtrlB => vsize (clower c) <> vsize (cupper c) -> contains m "autoSpan" /\ says_rows m "upper" (vsize (cupper c))
  end.
Proof.
  intros ps c m Fr H. unfold con_what in H. destruct Fr; cbn [ck mkTraj mkCtrl mkMixed mkTrajB mkCtrlB cE cG cf clower cupper hasBeenInit] in *.
  - destruct (Nat.eqb_spec (rows E) (vsize f)) as [R|R]; cbn [negb] in H; [|injection H as <-; split; [intros; ask|congruence]].
    split; [congruence|]. intros _. destruct (Nat.eqb _ _); [discriminate|]. destruct (Nat.eqb _ _); [discriminate|]. injection H as <-. apply msgX_says.
  - destruct (Nat.eqb_spec (rows G) (vsize f)) as [R|R]; cbn [negb] in H; [|injection H as <-; split; [intros; ask|congruence]].
    split; [congruence|]. intros _. destruct (Nat.eqb _ _); [discriminate|]. destruct (Nat.eqb _ _); [discriminate|]. injection H as <-. apply msgU_says.
  - destruct (Nat.eqb_spec (rows E) (vsize f)) as [R|R]; cbn [negb] in H; [|injection H as <-; split; [intros; ask|congruence]].
    destruct (Nat.eqb_spec (rows G) (vsize f)) as [R'|R']; cbn [negb] in H; [|injection H as <-; split; [intros; ask|congruence]].
    split; [intros [?|?]; congruence|]. intros _ _. destruct (_ && _); [discriminate|]. destruct (_ && _); [discriminate|]. injection H as <-. apply msgXU_says.
  - intro R. destruct (Nat.eqb_spec (vsize lo) (vsize up)); [congruence|]. injection H as <-. ask.
  - intro R. destruct (Nat.eqb_spec (vsize lo) (vsize up)); [congruence|]. injection H as <-. ask.
Qed.
Theorem C48_cost_message_partial : forall ps c m, cost_what ps c = Some m ->
  match kk c with
  | TrajectoryCost => (rows (kM c) <> vsize (kp c) -> contains m "autoSpan" /\ says_rows m "p" (vsize (kp c))) /\
             (rows (kM c) = vsize (kp c) -> says_dims m "M" (xDim ps) (fullXDim ps) (cols (kM c)))
  | TargetCost => rows (kM c) <> vsize (kp c) -> contains m "autoSpan" /\ says_rows m "p" (vsize (kp c))
  | ControlCost => (rows (kN c) <> vsize (kp c) -> contains m "autoSpan" /\ says_rows m "p" (vsize (kp c))) /\
             (rows (kN c) = vsize (kp c) -> says_dims m "N" (uDim ps) (fullUDim ps) (cols (kN c)))
  | MixedCost => (rows (kM c) <> vsize (kp c) \/ rows (kN c) <> vsize (kp c) -> contains m "autoSpan" /\ says_rows m "p" (vsize (kp c))) /\
              (rows (kM c) = vsize (kp c) -> rows (kN c) = vsize (kp c) -> says_cols m "M" (cols (kM c)) /\ says_cols m "N" (cols (kN c)))
  end.
Proof.
  intros ps c m H. unfold cost_what in H. destruct (kk c).
  - destruct (Nat.eqb_spec (rows (kM c)) (vsize (kp c))) as [R|R]; cbn [negb] in H; [|injection H as <-; split; [intros; ask|congruence]].
    split; [congruence|]. intros _. destruct (Nat.eqb _ _); [discriminate|]. destruct (Nat.eqb _ _); [discriminate|]. injection H as <-. apply msgX_says.
  - intro R. destruct (Nat.eqb_spec (rows (kM c)) (vsize (kp c))); [congruence|]. injection H as <-. ask.
  - destruct (Nat.eqb_spec (rows (kN c)) (vsize (kp c))) as [R|R]; cbn [negb] in H; [|injection H as <-; split; [intros; ask|congruence]].
    split; [congruence|]. intros _. destruct (Nat.eqb _ _); [discriminate|]. destruct (Nat.eqb _ _); [discriminate|]. injection H as <-. apply msgU_says.
  - destruct (Nat.eqb_spec (rows (kM c)) (vsize (kp c))) as [R|R]; cbn [negb] in H; [|injection H as <-; split; [intros; ask|congruence]].
    destruct (Nat.eqb_spec (rows (kN c)) (vsize (kp c))) as [R'|R']; cbn [negb] in H; [|injection H as <-; split; [intros; ask|congruence]].
    split; [intros [?|?]; congruence|]. intros _ _. destruct (_ && _); [discriminate|]. destruct (_ && _); [discriminate|]. injection H as <-. apply msgXU_says.
Qed.
(** weights and autoSpan *)
Theorem C48_weights_message : forall c w m, weights_what c w = Some m ->
  says_rows m "weights" (vsize w) /\ contains m ("exactly " ++ dec (vsize (kw c)) ++ " rows").
Proof.
  intros c w m H. unfold weights_what in H. cbv zeta in H. repeat (destruct (Nat.eqb _ _) in H; [discriminate|]). injection H as <-. unfold says_rows, msgOnRowsOnDim. split.
  - do 4 apply contains_l. exists "", ".". str.
  - exists "weights should have ", (". But weights has " ++ dec (vsize w) ++ " rows."). str.
Qed.
Theorem C48_span_message : forall r nd m, span_what r nd = Some m -> contains m ("(" ++ decz nd ++ ")") /\ contains m ("number of rows (" ++ dec r ++ ")").
Proof.
  intros r nd m H. unfold span_what in H. destruct (nd =? _)%Z; [discriminate|]. destruct (Nat.eqb _ _); [discriminate|]. destruct (negb _); [|discriminate]. injection H as <-.
  unfold msgOnBadNewDim. split.
  - exists "Can not span the matrix to the desired new dimension. The  desired dimension ", (" is not a multiple of the number of rows (" ++ dec r ++ ")."). str.
  - do 2 apply contains_l. exists ") is not a multiple of the ", ".". str.
Qed.

(** ** Refuted in general *)
(** two constraints of different sizes, the same message: the size of E is not in it *)
Theorem C48_autospan_message_refuted : exists ps c d m, fresh_constr c /\ fresh_constr d /\ rows (cE c) <> rows (cE d) /\
  con_what ps c = Some m /\ con_what ps d = Some m /\ ~ contains m "E has" /\ ~ contains m (dec (rows (cE c))).
Proof.
  exists exps, (mkTraj (mlit [[1; 0]; [0; 1]]%Z) (elit [fin 1; fin 2; fin 3]) true), (mkTraj (mlit [[1; 0]]%Z) (elit [fin 1; fin 2; fin 3]) true).
  eexists. split; [constructor|]. split; [constructor|]. split; [discriminate|]. split; [reflexivity|]. split; [reflexivity|]. split; apply not_contains; reflexivity.
Qed.
(** a target cost with the wrong number of columns: the message speaks of rows, and of no columns *)
Theorem C48_target_message_refuted : exists ps c m, fresh_cost c /\ rows (kM c) = vsize (kp c) /\ cols (kM c) <> xDim ps /\ cost_what ps c = Some m /\
  ~ contains m "col" /\ ~ contains m (dec (cols (kM c))) /\ contains m "M should have 2 rows. But M has 2 rows".
Proof.
  exists exps, (mkTargetC (mlit [[1; 0; 1]; [0; 1; 1]]%Z) (vlit [1; 2]%Z)). eexists. split; [constructor|]. split; [reflexivity|]. split; [discriminate|].
  split; [reflexivity|]. split; [apply not_contains; reflexivity|]. split; [apply not_contains; reflexivity|]. exists "", ".". reflexivity.
Qed.
(** bounds of a wrong size: the message gives the number of columns, which is 1 *)
Theorem C48_bound_message_refuted : exists ps c m, fresh_constr c /\ vsize (clower c) = vsize (cupper c) /\ ~ valid_shape ps c /\ con_what ps c = Some m /\
  ~ contains m (dec (vsize (clower c))) /\ says_cols m "lower" 1.
Proof.
  exists exps, (mkTrajB (elit [fin 1; fin 2; fin 3]) (elit [fin 1; fin 2; fin 3])). eexists. split; [constructor|]. split; [reflexivity|].
  split; [intros [_ [H|H]]; discriminate|]. split; [reflexivity|]. split; [apply not_contains; reflexivity|]. exists "lower should have 2 or 8 cols. But ", ".". reflexivity.
Qed.
(** ... for every pair of bounds of the same wrong size; the sizes that would fit are there *)
Theorem C48_bound_message_partial : forall ps lower upper m, vsize lower = vsize upper ->
  (con_what ps (mkTrajB lower upper) = Some m -> says_dims m "lower" (xDim ps) (fullXDim ps) 1) /\
  (con_what ps (mkCtrlB lower upper) = Some m -> says_dims m "lower" (uDim ps) (fullUDim ps) 1).
Proof.
  intros ps lower upper m E. unfold con_what. cbn [ck mkTrajB mkCtrlB hasBeenInit clower cupper]. rewrite E, Nat.eqb_refl. cbn [negb].
  split; intro H; repeat match type of H with (if ?b then _ else _) = _ => destruct b; [discriminate H|] end; injection H as <-; [apply msgX_says|apply msgU_says].
Qed.

(** bounds of different sizes: their names are long enough for both sizes to be left in the message *)
Theorem C48_bound_sizes : forall ps lower upper m, vsize lower <> vsize upper ->
  con_what ps (mkTrajB lower upper) = Some m \/ con_what ps (mkCtrlB lower upper) = Some m ->
  contains m (" " ++ dec (vsize lower) ++ " rows and upper has " ++ dec (vsize upper) ++ " rows.").
Proof.
  intros ps lower upper m E H.
  assert (M : m = msgOnRowsAskAutoSpan "lower" "upper" (vsize lower) (vsize upper)).
  { unfold con_what in H. cbn [ck mkTrajB mkCtrlB hasBeenInit clower cupper] in H. rewrite (proj2 (Nat.eqb_neq _ _) E) in H.
    cbn [negb] in H. destruct H as [H|H]; injection H as <-; reflexivity. }
  subst m. unfold msgOnRowsAskAutoSpan, msgOnRows.
  set (t := " " ++ dec (vsize lower) ++ " rows and upper has " ++ dec (vsize upper) ++ " rows.").
  assert (G : "lower" ++ " and " ++ "upper" ++ " should have same number of rows. " ++ "lower" ++ " has " ++ dec (vsize lower) ++ " rows and " ++
              "upper" ++ " has " ++ dec (vsize upper) ++ " rows."
            = "lower and upper should have same number of rows. lower has" ++ t) by reflexivity.
  rewrite G. destruct (overwrite_keep hint "lower and upper should have same number of rows. lower has" t) as [q ->]; [cbn; lia|].
  exists q, "". rewrite app_nil_s. reflexivity.
Qed.

(** mixed constraints and costs: the four sizes that would fit *)
Definition says_pairs (m n1 n2 : string) (a b c d : nat) : Prop :=
  contains m (n1 ++ " and " ++ n2 ++ " should respectively have " ++ dec a ++ " and " ++ dec b ++ " cols or " ++ dec c ++ " and " ++ dec d ++ " cols").
Lemma msgXU_pairs n1 n2 k1 k2 ps : says_pairs (msgOnColsOnPSXUDim n1 n2 k1 k2 ps) n1 n2 (xDim ps) (uDim ps) (fullXDim ps) (fullUDim ps).
Proof.
  unfold says_pairs, msgOnColsOnPSXUDim. exists "", (". But " ++ n1 ++ " has " ++ dec k1 ++ " cols and " ++ n2 ++ " has " ++ dec k2 ++ " cols."). str.
Qed.
Theorem C48_mixed_message : forall ps m,
  (forall E G f ineq, con_what ps (mkMixed E G f ineq) = Some m -> rows E = vsize f -> rows G = vsize f ->
     says_pairs m "E" "G" (xDim ps) (uDim ps) (fullXDim ps) (fullUDim ps)) /\
  (forall M N p, cost_what ps (mkMixedC M N p) = Some m -> rows M = vsize p -> rows N = vsize p ->
     says_pairs m "M" "N" (xDim ps) (uDim ps) (fullXDim ps) (fullUDim ps)).
Proof.
  intros ps m. unfold con_what, cost_what. cbn [ck mkMixed cE cG cf kk mkMixedC kM kN kp]. split.
  - intros E G f ineq H R1 R2. rewrite R1, R2, !Nat.eqb_refl in H. cbn [negb] in H.
    destruct (_ && _) in H; [discriminate H|]. destruct (_ && _) in H; [discriminate H|]. injection H as <-. apply msgXU_pairs.
  - intros M N p H R1 R2. rewrite R1, R2, !Nat.eqb_refl in H. cbn [negb] in H.
    destruct (_ && _) in H; [discriminate H|]. destruct (_ && _) in H; [discriminate H|]. injection H as <-. apply msgXU_pairs.
Qed.
(** the other exceptions: a second initialization, a number of steps that is not positive *)
Theorem C48_other_messages : forall ps c m s co b x n,
  (hasBeenInit c = true -> con_what ps c = Some m -> ck c = KCtrl \/ ck c = KCtrlB ->
     contains m (match ck c with KCtrl => " ControlConstraint twice" | _ => " ControlBoundConstraint twice" end)) /\
  (vsize x = rows s -> rows s = cols s -> vsize x = rows co -> vsize x = vsize b -> system_what s co b x n = Some m ->
     (n <= 0)%Z /\ contains m "number of step").
Proof.
  intros ps c m s co b x n. split.
  - intros I H [K|K]; unfold con_what in H; rewrite K, I in H; injection H as <-; rewrite K.
    + exists "You have initialized a", ". As move semantics are used, you can't do so.". reflexivity.
    + exists "You have initialized a", ". As move semantics are used, you can't do so.". reflexivity.
  - intros E1 E2 E3 E4 H. unfold system_what in H. rewrite <- E4, <- E3, <- E2, E1, !Nat.eqb_refl in H. cbn [negb] in H.
    destruct (Z.leb_spec n 0) as [L|L]; [|discriminate H]. injection H as <-. split; [exact L|].
    exists "The ", " sould be a positive number! ". reflexivity.
Qed.

(** ** Names *)
Theorem C48_names_partial : forall k ineq k' ineq', c_name k ineq = c_name k' ineq' ->
  (k = k' \/ (k = KCtrl /\ k' = KMixed) \/ (k = KMixed /\ k' = KCtrl)) /\
  (k = KTraj \/ k = KCtrl \/ k = KMixed -> ineq = ineq').
Proof.
  intros k ineq k' ineq' H. destruct k, k', ineq, ineq'; try discriminate H; (split; [tauto|]); intros [X|[X|X]]; try discriminate X; reflexivity.
Qed.
Theorem C48_names_refuted : forall ineq, c_name KCtrl ineq = c_name KMixed ineq.
Proof. reflexivity. Qed.
(** the text of name() of a constraint says its type: " equality constraint", " inequality constraint" or " bound constraint" ends it
    exactly when the constraint is of that type *)
Definition ends_with (s t : string) : Prop := exists a, s = a ++ t.
Fixpoint ends_withb (s t : string) : bool :=
  String.eqb s t || match s with EmptyString => false | String _ s' => ends_withb s' t end.
Lemma ends_withb_ok : forall s t, ends_with s t <-> ends_withb s t = true.
Proof.
  induction s as [|c s IH]; intro t; cbn [ends_withb].
  - rewrite orb_false_r, String.eqb_eq. split; [intros [[|x a] H]; [exact H|discriminate H]|intro H; exists ""; exact H].
  - rewrite orb_true_iff, String.eqb_eq, <- (IH t). split.
    + intros [[|x a] H]; [left; exact H|right; injection H as _ H; exists a; exact H].
    + intros [H|[a H]]; [exists ""; exact H|exists (String c a); cbn; f_equal; exact H].
Qed.
Theorem C48_name_types : forall c,
  (ends_with (c_name (ck c) (isIneq c)) " inequality constraint" <-> constraintType c = InequalityConstraint) /\
  (ends_with (c_name (ck c) (isIneq c)) " equality constraint" <-> constraintType c = EqualityConstraint) /\
  (ends_with (c_name (ck c) (isIneq c)) " bound constraint" <-> constraintType c = BoundConstraint).
Proof.
  intro c. unfold constraintType. rewrite !ends_withb_ok. destruct (ck c), (isIneq c); vm_compute; repeat split; intro H; discriminate H || reflexivity.
Qed.
Print Assumptions C48_name_types.
Theorem C48_cost_names : forall k k', k_name k = k_name k' -> k = k'.
Proof. intros [] [] H; try discriminate H; reflexivity. Qed.

Example C48_example :
  con_what exps (mkTraj (mlit [[1; 0]; [0; 1]]%Z) (elit [fin 1; fin 2; fin 3]) true)
    = Some (" Maybe you have forgottent to call autoSpanMatrix method?" ++ newline ++ "f has 3 rows.") /\
  con_what exps (mkMixed (mlit [[1; 0]]%Z) (mlit [[1; 0]]%Z) (elit [fin 1]) true)
    = Some "E and G should respectively have 2 and 1 cols or 8 and 3 cols. But E has 2 cols and G has 2 cols." /\
  span_what 2 5 = Some "Can not span the matrix to the desired new dimension. The  desired dimension (5) is not a multiple of the number of rows (2)." /\
  dec 0 = "0" /\ dec 1024 = "1024".
Proof. repeat split. Qed.
Print Assumptions C48_rows_message.
Print Assumptions C48_autospan_message_partial.
Print Assumptions C48_first_size_lost.
Print Assumptions C48_system_throws.
Print Assumptions C48_constraint_throws.
Print Assumptions C48_cost_throws.
Print Assumptions C48_span_throws.
Print Assumptions C48_weights_throws.
Print Assumptions C48_system_message_partial.
Print Assumptions C48_bias_refuted.
Print Assumptions C48_constraint_message_partial.
Print Assumptions C48_cost_message_partial.
Print Assumptions C48_weights_message.
Print Assumptions C48_span_message.
Print Assumptions C48_autospan_message_refuted.
Print Assumptions C48_target_message_refuted.
Print Assumptions C48_bound_message_refuted.
Print Assumptions C48_bound_message_partial.
Print Assumptions C48_bound_sizes.
Print Assumptions C48_mixed_message.
Print Assumptions C48_other_messages.
Print Assumptions C48_names_partial.
Print Assumptions C48_names_refuted.
Print Assumptions C48_cost_names.
