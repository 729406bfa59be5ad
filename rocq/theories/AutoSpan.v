(** AutoSpan.v -- model of AutoSpan (src/AutoSpan.cpp). *)
From Verif Require Import Base Eigen.

(** src/AutoSpan.cpp 10-28: spanMatrix.  [new_dim] is an Eigen::Index (64 bit) and
    [addCols] an int; the products of line 24 are taken without 64-bit overflow.
    C++ integer division truncates: [Z.quot]. *)
Definition spanMatrix (mat : mx) (new_dim addCols : Z) : outcome mx :=
  let matRows := rows mat in
  if (new_dim =? Z.of_nat matRows)%Z then Ok mat                               (* 13-15 *)
  else if Nat.eqb matRows 0 then UB                                            (* 19: division by zero *)
  else
    let matCols := cols mat in
    let nrStep := Z.quot new_dim (Z.of_nat matRows) in                         (* 19 *)
    if negb (nrStep * Z.of_nat matRows =? new_dim)%Z then Throw DomainError mat (* 20-22 *)
    else if (new_dim <? 0)%Z || (Z.of_nat matCols * (nrStep + addCols) <? 0)%Z then UB (* 24: negative size *)
    else of_opt
      (for_ 0 (Z.to_nat nrStep)                                                (* 25-27 *)
        (fun i m => setBlock m (i * matRows) (i * matCols) matRows matCols mat)
        (mzero (Z.to_nat new_dim) (Z.to_nat (Z.of_nat matCols * (nrStep + addCols))))).

(** src/AutoSpan.cpp 30-47: spanVector *)
Definition spanVector {T} (junk : nat -> T) (v : vec T) (new_dim : Z) : outcome (vec T) :=
  let vecRows := vsize v in
  if (new_dim =? Z.of_nat vecRows)%Z then Ok v                                 (* 33-35 *)
  else if Nat.eqb vecRows 0 then UB                                            (* 37: division by zero *)
  else
    let nrStep := Z.quot new_dim (Z.of_nat vecRows) in
    if negb (nrStep * Z.of_nat vecRows =? new_dim)%Z then Throw DomainError v  (* 39-41 *)
    else if (new_dim <? 0)%Z then UB                                           (* 43 *)
    else of_opt
      (for_ 1 (Z.to_nat nrStep) (fun i w => setSeg w (i * vecRows) vecRows v)  (* 44-46 *)
        (vconsResize junk v (Z.to_nat new_dim))).
