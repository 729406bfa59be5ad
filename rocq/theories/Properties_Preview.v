(** Properties_Preview.v -- C01-C04: the preview system. *)
From Verif Require Import Base Eigen Spec Preview SpecApi PreviewProofs.

(** ** C01: [system] accepts exactly the well-dimensioned systems and is all-or-nothing *)

Theorem C01_system : forall ps state control bias xInit n,
  (~ well_dimensioned state control bias xInit n ->
     system ps state control bias xInit n = Throw DomainError ps) /\
  (well_dimensioned state control bias xInit n -> ~ dimensions_fit state control n ->
     system ps state control bias xInit n = UB) /\
  (well_dimensioned state control bias xInit n -> dimensions_fit state control n ->
     exists ps', system ps state control bias xInit n = Ok ps' /\
       isUpdated ps' = false /\
       xDim ps' = cols state /\ uDim ps' = cols control /\
       Z.of_nat (nrUStep ps') = n /\ Z.of_nat (nrXStep ps') = (n + 1)%Z /\
       fullXDim ps' = xDim ps' * nrXStep ps' /\ fullUDim ps' = uDim ps' * nrUStep ps' /\
       x0 ps' = xInit /\ psA ps' = state /\ psB ps' = control /\ psd ps' = bias).
Proof.
  intros ps s c b x n. pose proof (system_cases ps s c b x n) as H.
  unfold well_dimensioned.
  destruct (system ps s c b x n) as [ps'|e ps'|].
  - destruct H as [H1 [H2 [H3 [H4 [H5 [W [H6 [H7 [H8 [H9 [H10 [H11 [H12 [H13 [H14 [_ [_ [_ G]]]]]]]]]]]]]]]]]].
    split; [|split].
    + intro N. exfalso. apply N. repeat split; try congruence. lia.
    + intros _ N. exfalso. apply N. apply dims_fit_bool; [lia|exact G].
    + intros _ _. exists ps'. split; [reflexivity|].
      rewrite (wf_fx ps' W), (wf_fu ps' W). rewrite H9, H10.
      repeat split; try assumption; lia.
  - destruct H as [-> [-> H]].
    split; [reflexivity|]. split; intros [E1 [E2 [E3 [E4 E5]]]]; exfalso;
      destruct H as [H|[H|[H|[H|H]]]]; try congruence; lia.
  - destruct H as [H1 [H2 [H3 [H4 [H5 G]]]]].
    split; [|split].
    + intro N. exfalso. apply N. repeat split; try congruence. lia.
    + reflexivity.
    + intros _ F. apply dims_fit_bool in F; [congruence|lia].
Qed.

(** a well-dimensioned system exists; a badly dimensioned one is rejected *)
Example C01_example_ok : well_dimensioned exA exB exd exx0 3 /\ dimensions_fit exA exB 3.
Proof. unfold well_dimensioned, dimensions_fit. cbn. repeat split; lia. Qed.
Example C01_example_bad : ~ well_dimensioned exA exB exd exU 3 /\ ~ well_dimensioned exA exB exd exx0 0.
Proof. unfold well_dimensioned. cbn. split; lia. Qed.
Example C01_example_overflow : well_dimensioned exA exB exd exx0 2000000000 /\ ~ dimensions_fit exA exB 2000000000.
Proof. unfold well_dimensioned, dimensions_fit. cbn. split; lia. Qed.
Print Assumptions C01_system.

(** A default-constructed system (include/PreviewSystem.h 24) is empty, and stays empty
    through any number of rejected calls: no step, no state, no input, nothing to predict,
    and updating it is harmless. *)
Definition empty_system (ps : psys) : Prop :=
  nrUStep ps = 0 /\ nrXStep ps = 0 /\ xDim ps = 0 /\ uDim ps = 0 /\ fullXDim ps = 0 /\ fullUDim ps = 0 /\
  vsize (x0 ps) = 0 /\ vsize (psd ps) = 0 /\ vsize (psxi ps) = 0 /\
  rows (psA ps) = 0 /\ cols (psA ps) = 0 /\ rows (psB ps) = 0 /\ cols (psB ps) = 0 /\
  rows (psPhi ps) = 0 /\ cols (psPhi ps) = 0 /\ rows (psPsi ps) = 0 /\ cols (psPsi ps) = 0.

Theorem C01_default : forall h,
  (forall o, In o h -> exists A B d x n, o = PSystem A B d x n /\ ~ well_dimensioned A B d x n) ->
  exists ps, ps_run ps_default h = Some ps /\ ps = ps_default /\
    isUpdated ps = false /\ empty_system ps /\
    exists ps', updateSystem ps = Some ps' /\ isUpdated ps' = true /\ empty_system ps'.
Proof.
  intros h H.
  assert (R : ps_run ps_default h = Some ps_default).
  { induction h as [|o t IH]; [reflexivity|].
    destruct (H o (or_introl eq_refl)) as (A & B & d & x & n & -> & W).
    cbn [ps_run ps_step].
    destruct (C01_system ps_default A B d x n) as (T & _).
    rewrite (T W). apply IH. intros o I. apply H. right. exact I. }
  exists ps_default. split; [exact R|]. split; [reflexivity|]. split; [reflexivity|].
  split; [unfold empty_system; cbn; repeat split; reflexivity|].
  eexists. split; [reflexivity|]. split; [reflexivity|].
  unfold empty_system; cbn; repeat split; reflexivity.
Qed.
Example C01_default_example :
  ps_run ps_default [PSystem exA exB exd exU 3; PSystem exA exB exd exx0 0] = Some ps_default.
Proof. reflexivity. Qed.
Print Assumptions C01_default.

(** ** C02: Phi, Psi, xi reproduce the dynamics *)

Theorem C02_preview_is_rollout : forall ps state control bias xInit n ps1,
  system ps state control bias xInit n = Ok ps1 ->
  exists ps2, updateSystem ps1 = Some ps2 /\ ensureUpdated ps1 = Some ps2 /\
    previews ps2 (cols state) (cols control) (Z.to_nat n) state control bias.
Proof.
  intros ps s c b x n ps1 E. pose proof (system_cases ps s c b x n) as H. rewrite E in H.
  destruct H as [H1 [H2 [H3 [H4 [H5 [W [H6 [H7 [H8 [H9 [H10 [H11 [H12 [H13 [H14 _]]]]]]]]]]]]]]].
  destruct (updateSystem_ok ps1 W) as [ps2 [E2 [W2 [R2 [_ [F1 [F2 [F3 [F4 [_ [_ [_ [F8 [F9 F10]]]]]]]]]]]]]].
  exists ps2. split; [exact E2|]. split; [unfold ensureUpdated; rewrite H6; exact E2|].
  pose proof (wf_previews ps2 W2 R2) as P.
  rewrite F3, F4, F1, F8, F9, F10, H7, H8, H9, H12, H13, H14 in P. exact P.
Qed.

(** the trajectory published by solve, Phi*x0 + Psi*U + xi, is defined and is the recursion *)
Theorem C02_preview_vector : forall ps n m N A B d (x U : vec Qc),
  previews ps n m N A B d -> vsize x = n -> vsize U = m * N ->
  exists X, preview ps x U = Some X /\ vsize X = n * (N + 1) /\
    forall k i, k <= N -> i < n ->
      vget X (k * n + i) = state_at n m (at_ A) (at_ B) (vget d) (vget x) (vget U) k i.
Proof.
  intros ps n m N A B d x U [P1 [P2 [P3 [P4 [P5 P6]]]]] Hx HU. unfold preview.
  rewrite mvmul_ok by congruence. cbn [obind]. rewrite mvmul_ok by congruence. cbn [obind].
  rewrite vadd_ok by (cbn; congruence). cbn [obind vsize vget].
  rewrite vadd_ok by (cbn; congruence). cbn [obind vsize vget].
  eexists. split; [reflexivity|]. cbn [vsize vget]. split; [exact P1|].
  intros k i Hk Hi. rewrite P2, P4. apply P6; assumption.
Qed.

(** the 2-state system over 3 steps: x = (3,2), then (5,6), (11,12), (23,12) *)
Example C02_example :
  match ps_new exA exB exd exx0 3 with
  | Ok ps1 => match updateSystem ps1 with
    | Some ps2 => match preview ps2 exx0 exU with
      | Some X => vdump X = map qz [3; 2; 5; 6; 11; 12; 23; 12]%Z
      | None => False end
    | None => False end
  | _ => False end.
Proof. vm_compute. repeat (apply f_equal2; [apply Qc_is_canon; reflexivity|]). reflexivity. Qed.
Print Assumptions C02_preview_is_rollout.
Print Assumptions C02_preview_vector.

(** ** C03: causality *)

Theorem C03_causality : forall ps n m N A B d, previews ps n m N A B d ->
  (* block (k,l) of Psi is zero for l >= k *)
  (forall k l i j, k <= N -> l < N -> k <= l -> i < n -> j < m ->
     at_ (psPsi ps) (k * n + i) (l * m + j) = 0%Qc) /\
  (* controls equal on the first k steps give the same states up to step k *)
  (forall (x U U' X X' : vec Qc) k,
     vsize x = n -> vsize U = m * N -> vsize U' = m * N -> k <= N ->
     (forall c, c < k * m -> vget U c = vget U' c) ->
     preview ps x U = Some X -> preview ps x U' = Some X' ->
     forall q i, q <= k -> i < n -> vget X (q * n + i) = vget X' (q * n + i)).
Proof.
  intros ps n m N A B d P. split.
  - intros k l i j Hk Hl Hkl Hi Hj.
    assert (Hc : l * m + j < m * N) by nia.
    pose proof (proj2 (proj2 (proj2 (proj2 (proj2 P))))) as P6.
    pose proof (P6 (fun _ => 0%Qc) (fun c => if Nat.eqb c (l * m + j) then 1%Qc else 0%Qc) k i Hk Hi) as E1.
    pose proof (P6 (fun _ => 0%Qc) (fun _ => 0%Qc) k i Hk Hi) as E0.
    rewrite (state_at_causal n m (at_ A) (at_ B) (vget d) (fun _ => 0%Qc)
              (fun c => if Nat.eqb c (l * m + j) then 1%Qc else 0%Qc) (fun _ => 0%Qc) k) in E1.
    2:{ intros c Hc'. destruct (Nat.eqb_spec c (l * m + j)); [nia|reflexivity]. }
    rewrite <- E0 in E1.
    rewrite (sum_ext (m * N) _ (fun c => if Nat.eqb c (l * m + j) then at_ (psPsi ps) (k * n + i) c else 0%Qc)) in E1.
    2:{ intros c Hc'. destruct (Nat.eqb c (l * m + j)); ring. }
    rewrite sum_delta in E1 by exact Hc.
    rewrite (sum_zero (m * N) (fun c => at_ (psPsi ps) (k * n + i) c * 0)%Qc) in E1 by (intros; ring).
    revert E1. generalize (sum n (fun j0 => at_ (psPhi ps) (k * n + i) j0 * 0)%Qc) (vget (psxi ps) (k * n + i))
                          (at_ (psPsi ps) (k * n + i) (l * m + j)).
    intros a e f E1. assert (f = (a + f + e) - (a + e))%Qc by ring.
    rewrite E1 in H. rewrite H. ring.
  - intros x U U' X X' k Hx HU HU' Hk Heq E E' q i Hq Hi.
    destruct (C02_preview_vector ps n m N A B d x U P Hx HU) as [Y [EY [_ HY]]].
    destruct (C02_preview_vector ps n m N A B d x U' P Hx HU') as [Y' [EY' [_ HY']]].
    rewrite EY in E. rewrite EY' in E'. injection E as <-. injection E' as <-.
    rewrite HY, HY' by lia. apply state_at_causal. intros c Hc. apply Heq. nia.
Qed.
Print Assumptions C03_causality.

(** ** C04: caching, repeating and redoing the update *)

Theorem C04_update_histories : forall state control bias xInit n ps1 h,
  ps_new state control bias xInit n = Ok ps1 -> ps_hist_ok ps1 h ->
  exists ps, ps_run ps1 h = Some ps /\
  exists ps', updateSystem ps = Some ps' /\ ensureUpdated (ps_clearUpdated ps) = Some ps' /\
    (* the update is that of the current A, B, d, whatever happened before *)
    isUpdated ps' = true /\
    previews ps' (xDim ps) (uDim ps) (nrUStep ps) (psA ps) (psB ps) (psd ps) /\
    psA ps' = psA ps /\ psB ps' = psB ps /\ psd ps' = psd ps /\ x0 ps' = x0 ps /\
    xDim ps' = xDim ps /\ uDim ps' = uDim ps /\ nrUStep ps' = nrUStep ps /\ nrXStep ps' = nrXStep ps /\
    fullXDim ps' = fullXDim ps /\ fullUDim ps' = fullUDim ps /\
    (* updating again changes nothing *)
    ensureUpdated ps' = Some ps' /\
    (exists ps'', updateSystem ps' = Some ps'' /\ ps_same ps' ps'') /\
    (* a new initial state needs no update *)
    (forall x, ensureUpdated (ps_xInit ps' x) = Some (ps_xInit ps' x) /\
       previews (ps_xInit ps' x) (xDim ps) (uDim ps) (nrUStep ps) (psA ps) (psB ps) (psd ps) /\
       x0 (ps_xInit ps' x) = x).
Proof.
  intros s c b x n ps1 h E H. apply system_inv in E.
  destruct (ps_run_inv h ps1 E H) as [ps [Er [W X]]].
  exists ps. split; [exact Er|].
  destruct (updateSystem_ok ps W) as [ps' [E2 [W2 [R2 [U2 [F1 [F2 [F3 [F4 [F5 [F6 [F7 [F8 [F9 F10]]]]]]]]]]]]]].
  exists ps'. split; [exact E2|]. split; [exact E2|].
  pose proof (wf_previews ps' W2 R2) as P. rewrite F3, F4, F1, F8, F9, F10 in P.
  split; [exact U2|]. split; [exact P|].
  repeat (split; [assumption|]).
  split; [unfold ensureUpdated; rewrite U2; reflexivity|].
  split; [apply update_idem; assumption|].
  intro y. split; [unfold ensureUpdated; cbn; rewrite U2; reflexivity|].
  split; [exact P|reflexivity].
Qed.

(** changing the model and clearing the flag is a history within the protocol *)
Example C04_example :
  match ps_new exA exB exd exx0 3 with
  | Ok ps1 => ps_hist_ok ps1 [PUpdate; PXInit (vlit [1; 1]%Z); PSetModel (mlit [[2; 0]; [0; 2]]%Z) exB exd;
                PClearUpdated; PEnsureUpdated; PSystem exA exB exd exU 3; PSystem exA exB exd exx0 2; PUpdate]
  | _ => False end.
Proof.
  destruct (ps_new exA exB exd exx0 3) as [ps1|e ps1|] eqn:E; [|discriminate E|discriminate E].
  apply ps_hist_okb_ok. injection E as <-. vm_compute. reflexivity.
Qed.
Print Assumptions C04_update_histories.
