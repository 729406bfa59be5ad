(** Spec.v -- what copra's documentation promises, written with finite sums
    only, without the model's matrix operations.  Data are entry functions
    with explicit dimensions. *)
From Verif Require Import Base.

(** * The discrete linear system  x_{k+1} = A x_k + B u_k + d  (doc of PreviewSystem.h, 16-21).
    [n] state size, [m] control size, [U] the stacked control (u_k is U[k*m .. k*m+m-1]). *)
Fixpoint state_at (n m : nat) (A B : nat -> nat -> Qc) (d x0 U : nat -> Qc) (k : nat) : nat -> Qc :=
  match k with
  | O => x0
  | S p => fun i =>
      (sum n (fun j => A i j * state_at n m A B d x0 U p j)
       + sum m (fun j => B i j * U (p * m + j)%nat) + d i)%Qc
  end.

(** entry [i] of [M v] for an [_ x n] matrix [M] *)
Definition apply (n : nat) (M : nat -> nat -> Qc) (v : nat -> Qc) (i : nat) : Qc :=
  sum n (fun j => M i j * v j)%Qc.

(** the comparison stated by a constraint: [<=] for an inequality, [=] for an equality *)
Definition cmp (ineq : bool) (q : Qc) (e : ext) : Prop :=
  if ineq then q_le_ext q e else q_eq_ext q e.

(** rows [A x <= b] or [A x = b] of an [r x c] system *)
Definition rows_hold (ineq : bool) (r c : nat) (A : nat -> nat -> Qc) (b : nat -> ext) (x : nat -> Qc) : Prop :=
  forall i, i < r -> cmp ineq (apply c A x i) (b i).

(** * Quadratic programs *)

(** 1/2 x'Qx + c'x *)
Definition half : Qc := Q2Qc (1 # 2).
Definition objective (n : nat) (Q : nat -> nat -> Qc) (c : nat -> Qc) (x : nat -> Qc) : Qc :=
  (half * sum n (fun i => x i * apply n Q x i) + sum n (fun i => c i * x i))%Qc.

(** 1/2 || v ||^2_W = 1/2 sum_i w_i v_i^2 *)
Definition wsq (r : nat) (w : nat -> Qc) (v : nat -> Qc) : Qc :=
  (half * sum r (fun i => w i * (v i * v i)))%Qc.

Definition within_bounds (n : nat) (lb ub : nat -> ext) (x : nat -> Qc) : Prop :=
  forall i, i < n -> ext_le_q (lb i) (x i) /\ q_le_ext (x i) (ub i).

(** positive definiteness of the quadratic form x'Qx *)
Definition pos_def (n : nat) (Q : nat -> nat -> Qc) : Prop :=
  forall x, (exists i, i < n /\ x i <> 0%Qc) -> (0 < sum n (fun i => x i * apply n Q x i))%Qc.
Definition symmetric (n : nat) (Q : nat -> nat -> Qc) : Prop :=
  forall i j, i < n -> j < n -> Q i j = Q j i.
