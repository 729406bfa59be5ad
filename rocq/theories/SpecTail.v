(** SpecTail.v -- C60: solving again after some steps, with the horizon shortened by them. *)
From Verif Require Import Base Eigen Spec Preview SpecApi.

(** the same system; the initial state and the horizon may differ *)
Definition same_system (p q : psys) : Prop :=
  xDim p = xDim q /\ uDim p = uDim q /\ psA p = psA q /\ psB p = psB q /\ psd p = psd q.
(** [b] is what remains of [a] after its first [r] entries *)
Definition is_rest (r : nat) (a b : vec Qc) : Prop := vsize a = r + vsize b /\ forall i, i < vsize b -> vget b i = vget a (r + i).
(** [b] is the part of [a] that starts at its entry [r] *)
Definition is_part (r : nat) (a b : vec Qc) : Prop := r + vsize b <= vsize a /\ forall i, i < vsize b -> vget b i = vget a (r + i).
