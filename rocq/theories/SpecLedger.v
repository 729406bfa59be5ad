(** SpecLedger.v -- what a cost that is never reset adds up to over successive solves (C63).
    [include/costFunctions.h] documents a cost by its value; the per-step trajectory and mixed costs add to what they
    computed in the earlier solves since they were registered (C19). *)
From Verif Require Import Base Eigen Spec Preview SpecApi AutoSpan Constraints Costs SpecCosts Controller SpecController SpecEndToEnd.

(** one update of a cost: the weights the user had given it, the system it was updated for *)
Definition entry : Type := (vec Qc * psys)%type.

(** the updates of cost [i] since it was last registered, in a program that runs [h] from [w] after the calls [past]:
    one per solve (per registration of [i]) *)
Definition ledger_op (past : list op) (w w' : world) (i : nat) (o : op) (l : list entry) : list entry :=
  match o with
  | OAddCost _ k => if Nat.eqb k i then [] else l
  | OSolve _ => match m_ps (ctl w) with
                | Some p => l ++ repeat (weights_of past i, wps w' p) (cnt i (spCost (ctl w)))
                | None => l end
  | _ => l
  end.
Fixpoint ledger (w : world) (past : list op) (i : nat) (l : list entry) (h : list op) : list entry :=
  match h with
  | [] => l
  | o :: t => match step w o with
              | Ok w' | Throw _ w' => ledger w' (past ++ [o]) i (ledger_op past w w' i o l) t
              | UB => l
              end
  end.
Definition updates_of (h : list op) (i : nat) : list entry := ledger world0 [] i [] h.

Fixpoint over {A : Type} (l : list A) (f : A -> Qc) : Qc :=
  match l with [] => 0%Qc | a :: t => (f a + over t f)%Qc end.

(** the sum of the documented values of the cost [d] in the updates [L], from the initial state [x] *)
Definition running (d : cost_data) (L : list entry) (x U : nat -> Qc) : Qc :=
  over L (fun a => cost_value (snd a) d (fst a) x U).
(** the part of a quadratic function that is linear in [U] *)
Definition linear_part (g : (nat -> Qc) -> Qc) (U : nat -> Qc) : Qc := (half * (g U - g (fun i => - U i)))%Qc.
(** the linear terms left by the updates [L] that came after [P] *)
Fixpoint drift (d : cost_data) (P L : list entry) (U : nat -> Qc) : Qc :=
  match L with
  | [] => 0%Qc
  | a :: t => (linear_part (running d (P ++ [a]) (vget (x0 (snd a)))) U + drift d (P ++ [a]) t U)%Qc
  end.
(** what the last of the updates [L], for the system [ps], makes of the cost [d] *)
Definition effective (ps : psys) (d : cost_data) (L : list entry) (U : nat -> Qc) : Qc :=
  (running d L (vget (x0 ps)) U + match d with DMixedC _ _ _ => drift d [] (removelast L) U | _ => 0 end)%Qc.
(** the sum over the registered costs [l] in the solve [e] that follows [h] *)
Definition effective_cost (ps : psys) (h : list op) (e : senv) (l : list nat) (U : nat -> Qc) : Qc :=
  lsum l (fun i => match cost_data_of h i with
     | Some d => if per_step ps d then effective ps d (updates_of (h ++ [OSolve e]) i) U
                 else cost_value ps d (weights_of h i) (vget (x0 ps)) U
     | None => 0%Qc end).
(** the same for InitialStateLMPC, from the initial state [x] *)
Definition effective_cost_from (ps : psys) (h : list op) (e : senv) (l : list nat) (x U : nat -> Qc) : Qc :=
  lsum l (fun i => match cost_data_of h i with
     | Some d => if per_step ps d then running d (updates_of (h ++ [OSolve e]) i) x U
                 else cost_value ps d (weights_of h i) x U
     | None => 0%Qc end).

(** ** Solving again without touching anything *)
Definition times (k : nat) (v : Qc) : Qc := (qz (Z.of_nat k) * v)%Qc.
(** 0 + 1 + ... + (k-1) *)
Fixpoint below (k : nat) : nat := match k with 0 => 0 | S j => below j + j end.
(** what the [k]-th solve in a row makes of the registered costs [l] *)
Definition kth_cost (k : nat) (ps : psys) (h : list op) (l : list nat) (U : nat -> Qc) : Qc :=
  lsum l (fun i => match cost_data_of h i with
     | Some d =>
         let v := cost_value ps d (weights_of h i) (vget (x0 ps)) in
         if per_step ps d then (times k (v U) + match d with DMixedC _ _ _ => times (below k) (linear_part v U) | _ => 0 end)%Qc
         else v U
     | None => 0%Qc end).
