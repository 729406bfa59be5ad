(** SpecApi.v -- specifications phrased with the public fields and getters of
    the modelled objects, and the literals used by the examples. *)
From Verif Require Import Base Eigen Spec Preview.

(** C01: the documented precondition of PreviewSystem::system (PreviewSystem.h 37-44) *)
Definition well_dimensioned (state control : mx) (bias xInit : vec Qc) (n : Z) : Prop :=
  rows state = cols state /\ rows control = rows state /\ vsize bias = rows state /\
  vsize xInit = rows state /\ (1 <= n)%Z.

(** C01: every dimension computed by [system] is representable as [int] *)
Definition dimensions_fit (state control : mx) (n : Z) : Prop :=
  (n + 1 <= 2147483647)%Z /\ (Z.of_nat (cols state) <= 2147483647)%Z /\ (Z.of_nat (cols control) <= 2147483647)%Z /\
  (Z.of_nat (cols state) * (n + 1) <= 2147483647)%Z /\ (Z.of_nat (cols control) * n <= 2147483647)%Z.

(** the published matrices Phi, Psi, xi predict the trajectory of
    x_{k+1} = A x_k + B u_k + d over [N] control steps, for all x_0 and U *)
Definition previews (ps : psys) (n m N : nat) (A B : mx) (d : vec Qc) : Prop :=
  rows (psPhi ps) = n * (N + 1) /\ cols (psPhi ps) = n /\
  rows (psPsi ps) = n * (N + 1) /\ cols (psPsi ps) = m * N /\
  vsize (psxi ps) = n * (N + 1) /\
  forall (x U : nat -> Qc) k i, k <= N -> i < n ->
    (sum n (fun j => at_ (psPhi ps) (k * n + i) j * x j)
     + sum (m * N) (fun c => at_ (psPsi ps) (k * n + i) c * U c)
     + vget (psxi ps) (k * n + i))%Qc
    = state_at n m (at_ A) (at_ B) (vget d) x U k i.

(** the state of the current system [ps] at step [k], from [x], under the stacked control [U] *)
Definition state_of (ps : psys) (x U : nat -> Qc) (k : nat) : nat -> Qc :=
  state_at (xDim ps) (uDim ps) (at_ (psA ps)) (at_ (psB ps)) (vget (psd ps)) x U k.
(** the same, stacked: entry [k*xDim + i] is component [i] of the state at step [k] *)
Definition stacked_state (ps : psys) (x U : nat -> Qc) (r : nat) : Qc :=
  state_of ps x U (r / xDim ps) (r mod xDim ps).
(** the control applied at step [k] *)
Definition control_at (m : nat) (U : nat -> Qc) (k : nat) : nat -> Qc := fun j => U (k * m + j).

(** an updated preview system with an initial state of the right size *)
Record ready (ps : psys) : Prop := {
  rd_nx : nrXStep ps = nrUStep ps + 1;
  rd_nu : 1 <= nrUStep ps;
  rd_fx : fullXDim ps = xDim ps * nrXStep ps;
  rd_fu : fullUDim ps = uDim ps * nrUStep ps;
  rd_x0 : vsize (x0 ps) = xDim ps;
  rd_pv : previews ps (xDim ps) (uDim ps) (nrUStep ps) (psA ps) (psB ps) (psd ps)
}.

(** two systems with the same dimensions and horizon *)
Definition same_dims (p q : psys) : Prop :=
  xDim p = xDim q /\ uDim p = uDim q /\ nrUStep p = nrUStep q /\ nrXStep p = nrXStep q /\
  fullXDim p = fullXDim q /\ fullUDim p = fullUDim q.

(** ** Entries given per step or over the horizon (C23, C24) *)
(** [M] is given per step ([p] rows, [w] columns) or over the horizon ([p*q] rows, [w*(q+ac)] columns) *)
Definition step_mx (p w : nat) (M : mx) : Prop := rows M = p /\ cols M = w.
Definition full_mx (p w q ac : nat) (M : mx) : Prop := rows M = p * q /\ cols M = w * (q + ac).

(** row (k,i) of the entry applied to the stacked vector [v] *)
Definition part (p w q ac : nat) (M : mx) (v : nat -> Qc) (k i : nat) : Qc :=
  if Nat.eqb (cols M) w then apply w (at_ M) (fun j => v (k * w + j)) i
  else apply (w * (q + ac)) (at_ M) v (k * p + i).

(** the same for a vector of [p] or [p*q] entries *)
Definition vpart {T} (p : nat) (f : vec T) (k i : nat) : T :=
  if Nat.eqb (vsize f) p then vget f i else vget f (k * p + i).

(** literals *)
Definition qz (z : Z) : Qc := Q2Qc (inject_Z z).
Definition mlit (l : list (list Z)) : mx :=
  Mx (length l) (length (hd [] l)) (fun i j => qz (nth j (nth i l []) 0%Z)).
Definition vlit (l : list Z) : vec Qc := Vec (length l) (fun i => qz (nth i l 0%Z)).
Definition elit (l : list ext) : vec ext := Vec (length l) (fun i => nth i l PInf).
Definition fin (z : Z) : ext := Fin (qz z).
Definition vdump {T} (v : vec T) : list T := map (vget v) (seq 0 (vsize v)).
Definition mdump (m : mx) : list (list Qc) :=
  map (fun i => map (at_ m i) (seq 0 (cols m))) (seq 0 (rows m)).

(** a system with two states and one control *)
Definition exA : mx := mlit [[1; 1]; [0; 1]]%Z.
Definition exB : mx := mlit [[0]; [1]]%Z.
Definition exd : vec Qc := vlit [0; -1]%Z.
Definition exx0 : vec Qc := vlit [3; 2]%Z.
Definition exU : vec Qc := vlit [5; 7; 1]%Z.
