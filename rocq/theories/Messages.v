(** Messages.v -- model of src/debugUtils.cpp, of the names of the constraints and costs, and of the message of each
    exception thrown by the modelled functions.  An exception's what() is "In file: <file>(line <n>): [In function: <f>]\n"
    followed by the message (debugUtils.h 33-36); file, line and function are not modelled, only the message is. *)
From Coq Require Import String DecimalString.
From Verif Require Import Base Eigen Preview AutoSpan Constraints Costs.
Local Open Scope string_scope.

(** std::to_string of a non-negative integer *)
Definition dec (n : nat) : string := NilZero.string_of_uint (Nat.to_uint n).
(** operator<< of an Eigen::Index *)
Definition decz (z : Z) : string := NilZero.string_of_int (Z.to_int z).

(** a [std::ostringstream] built from a string: opened for output only, writing starts at position 0
    and overwrites what is there (std::stringbuf, mode [out]) *)
Fixpoint overwrite (init w : string) : string :=
  match w with
  | EmptyString => init
  | String a w' => String a match init with EmptyString => overwrite EmptyString w' | String _ i => overwrite i w' end
  end.

Definition newline : string := String (Ascii.ascii_of_nat 10) EmptyString.

(** debugUtils.cpp 10-17; the row counts of the two arguments *)
Definition msgOnRows (n1 n2 : string) (r1 r2 : nat) : string :=
  n1 ++ " and " ++ n2 ++ " should have same number of rows. "
  ++ n1 ++ " has " ++ dec r1 ++ " rows and "
  ++ n2 ++ " has " ++ dec r2 ++ " rows.".
(** debugUtils.cpp 19-24 *)
Definition hint : string := " Maybe you have forgottent to call autoSpanMatrix method?" ++ newline.
Definition msgOnRowsAskAutoSpan (n1 n2 : string) (r1 r2 : nat) : string := overwrite (msgOnRows n1 n2 r1 r2) hint.
(** debugUtils.cpp 26-33 *)
Definition msgOnSquareMat (n : string) (r c : nat) : string :=
  n ++ " should be a squared matrix but it is a (" ++ dec r ++ "-by-" ++ dec c ++ ") matrix.".
(** debugUtils.cpp 35-41 *)
Definition msgOnRowsOnDim (n : string) (r dim : nat) : string :=
  n ++ " should have exactly " ++ dec dim ++ " rows. But " ++ n ++ " has " ++ dec r ++ " rows.".
(** debugUtils.cpp 43-49 *)
Definition msgOnRowsOnPSxDim (n : string) (r : nat) (ps : psys) : string :=
  n ++ " should have " ++ dec (xDim ps) ++ " rows. But " ++ n ++ " has " ++ dec r ++ " rows.".
(** debugUtils.cpp 67-73 *)
Definition msgOnColsOnPSXDim (n : string) (c : nat) (ps : psys) : string :=
  n ++ " should have " ++ dec (xDim ps) ++ " or " ++ dec (fullXDim ps) ++ " cols. But " ++ n ++ " has " ++ dec c ++ " cols.".
(** debugUtils.cpp 75-81 *)
Definition msgOnColsOnPSUDim (n : string) (c : nat) (ps : psys) : string :=
  n ++ " should have " ++ dec (uDim ps) ++ " or " ++ dec (fullUDim ps) ++ " cols. But " ++ n ++ " has " ++ dec c ++ " cols.".
(** debugUtils.cpp 93-102 *)
Definition msgOnColsOnPSXUDim (n1 n2 : string) (c1 c2 : nat) (ps : psys) : string :=
  n1 ++ " and " ++ n2 ++ " should respectively have "
  ++ dec (xDim ps) ++ " and " ++ dec (uDim ps) ++ " cols or "
  ++ dec (fullXDim ps) ++ " and " ++ dec (fullUDim ps) ++ " cols. But "
  ++ n1 ++ " has " ++ dec c1 ++ " cols and "
  ++ n2 ++ " has " ++ dec c2 ++ " cols.".
(** debugUtils.cpp 104-111 *)
Definition msgOnBadNewDim (r : nat) (new_dim : Z) : string :=
  "Can not span the matrix to the desired new dimension. The  desired dimension ("
  ++ decz new_dim ++ ") is not a multiple of the number of rows (" ++ dec r ++ ").".

(** ** name(): constraints.h 70, 128, 164, 204, 243, 287 and constraints.cpp 28-32 *)
Definition eqineq_name (qualifier : string) (ineq : bool) : string :=
  qualifier ++ (if ineq then " inequality constraint" else " equality constraint").
Definition c_name (k : ckind) (ineq : bool) : string :=
  match k with
  | KTraj => eqineq_name "Trajectory" ineq
  | KCtrl => eqineq_name "Control" ineq
  | KMixed => eqineq_name "Control" ineq
  | KTrajB => eqineq_name "Trajectory bound" true
  | KCtrlB => "Control bound constraint"
  end.
(** costFunctions.h 111-114, 141-144, 170-173, 201-205 *)
Definition k_name (k : kkind) : string :=
  match k with
  | TrajectoryCost => "TrajectoryCost"
  | TargetCost => "TargetCost"
  | ControlCost => "ControlCost"
  | MixedCost => "MixedCost"
  end.

(** ** The message of the exception thrown, if one is *)

(** src/PreviewSystem.cpp 19-33; line 29 names the bias "state" *)
Definition system_what (state control : mx) (bias xInit : vec Qc) (numberOfSteps : Z) : option string :=
  if negb (Nat.eqb (vsize xInit) (rows state)) then Some (msgOnRows "xInit" "state" (vsize xInit) (rows state))
  else if negb (Nat.eqb (rows state) (cols state)) then Some (msgOnSquareMat "state" (rows state) (cols state))
  else if negb (Nat.eqb (vsize xInit) (rows control)) then Some (msgOnRows "xInit" "control" (vsize xInit) (rows control))
  else if negb (Nat.eqb (vsize xInit) (vsize bias)) then Some (msgOnRows "xInit" "state" (vsize xInit) (vsize bias))
  else if (numberOfSteps <=? 0)%Z then Some "The number of step sould be a positive number! "
  else None.

(** src/AutoSpan.cpp 13-22, 33-41; [None] as well where the division by zero is undefined *)
Definition span_what (r : nat) (new_dim : Z) : option string :=
  if (new_dim =? Z.of_nat r)%Z then None
  else if Nat.eqb r 0 then None
  else if negb (Z.quot new_dim (Z.of_nat r) * Z.of_nat r =? new_dim)%Z then Some (msgOnBadNewDim r new_dim)
  else None.

(** include/costFunctions.h 57-66 *)
Definition weights_what (c : cost) (w : vec Qc) : option string :=
  let n := vsize (kw c) in
  let m := vsize w in
  if Nat.eqb m n then None
  else if Nat.eqb m 0 then None
  else if Nat.eqb (n mod m) 0 then None
  else Some (msgOnRowsOnDim "weights" m n).

(** constraints.cpp 47-58, 108-128, 173-187, 265-276, 335-354 *)
Definition con_what (ps : psys) (c : constr) : option string :=
  match ck c with
  | KTraj =>
      if negb (Nat.eqb (rows (cE c)) (vsize (cf c))) then Some (msgOnRowsAskAutoSpan "E" "f" (rows (cE c)) (vsize (cf c)))
      else if Nat.eqb (cols (cE c)) (xDim ps) then None
      else if Nat.eqb (cols (cE c)) (fullXDim ps) then None
      else Some (msgOnColsOnPSXDim "E" (cols (cE c)) ps)
  | KCtrl =>
      if hasBeenInit c then Some "You have initialized a ControlConstraint twice. As move semantics are used, you can't do so."
      else if negb (Nat.eqb (rows (cG c)) (vsize (cf c))) then Some (msgOnRowsAskAutoSpan "G" "f" (rows (cG c)) (vsize (cf c)))
      else if Nat.eqb (cols (cG c)) (uDim ps) then None
      else if Nat.eqb (cols (cG c)) (fullUDim ps) then None
      else Some (msgOnColsOnPSUDim "G" (cols (cG c)) ps)
  | KMixed =>
      if negb (Nat.eqb (rows (cE c)) (vsize (cf c))) then Some (msgOnRowsAskAutoSpan "E" "f" (rows (cE c)) (vsize (cf c)))
      else if negb (Nat.eqb (rows (cG c)) (vsize (cf c))) then Some (msgOnRowsAskAutoSpan "G" "f" (rows (cG c)) (vsize (cf c)))
      else if Nat.eqb (cols (cE c)) (xDim ps) && Nat.eqb (cols (cG c)) (uDim ps) then None
      else if Nat.eqb (cols (cE c)) (fullXDim ps) && Nat.eqb (cols (cG c)) (fullUDim ps) then None
      else Some (msgOnColsOnPSXUDim "E" "G" (cols (cE c)) (cols (cG c)) ps)
  | KTrajB =>
      if negb (Nat.eqb (vsize (clower c)) (vsize (cupper c))) then Some (msgOnRowsAskAutoSpan "lower" "upper" (vsize (clower c)) (vsize (cupper c)))
      else if Nat.eqb (vsize (clower c)) (xDim ps) then None
      else if Nat.eqb (vsize (clower c)) (fullXDim ps) then None
      else Some (msgOnColsOnPSXDim "lower" 1 ps)              (* 275: lower_ has one column *)
  | KCtrlB =>
      if hasBeenInit c then Some "You have initialized a ControlBoundConstraint twice. As move semantics are used, you can't do so."
      else if negb (Nat.eqb (vsize (clower c)) (vsize (cupper c))) then Some (msgOnRowsAskAutoSpan "lower" "upper" (vsize (clower c)) (vsize (cupper c)))
      else if Nat.eqb (vsize (clower c)) (uDim ps) then None
      else if Nat.eqb (vsize (clower c)) (fullUDim ps) then None
      else Some (msgOnColsOnPSUDim "lower" 1 ps)              (* 353 *)
  end.

(** costFunctions.cpp 47-60, 91-97, 125-136, 176-192 *)
Definition cost_what (ps : psys) (c : cost) : option string :=
  match kk c with
  | TrajectoryCost =>
      if negb (Nat.eqb (rows (kM c)) (vsize (kp c))) then Some (msgOnRowsAskAutoSpan "M" "p" (rows (kM c)) (vsize (kp c)))
      else if Nat.eqb (cols (kM c)) (xDim ps) then None
      else if Nat.eqb (cols (kM c)) (fullXDim ps) then None
      else Some (msgOnColsOnPSXDim "M" (cols (kM c)) ps)
  | TargetCost =>
      if negb (Nat.eqb (rows (kM c)) (vsize (kp c))) then Some (msgOnRowsAskAutoSpan "M" "p" (rows (kM c)) (vsize (kp c)))
      else if negb (Nat.eqb (cols (kM c)) (xDim ps)) then Some (msgOnRowsOnPSxDim "M" (rows (kM c)) ps)   (* 96 *)
      else None
  | ControlCost =>
      if negb (Nat.eqb (rows (kN c)) (vsize (kp c))) then Some (msgOnRowsAskAutoSpan "N" "p" (rows (kN c)) (vsize (kp c)))
      else if Nat.eqb (cols (kN c)) (uDim ps) then None
      else if Nat.eqb (cols (kN c)) (fullUDim ps) then None
      else Some (msgOnColsOnPSUDim "N" (cols (kN c)) ps)
  | MixedCost =>
      if negb (Nat.eqb (rows (kM c)) (vsize (kp c))) then Some (msgOnRowsAskAutoSpan "M" "p" (rows (kM c)) (vsize (kp c)))
      else if negb (Nat.eqb (rows (kN c)) (vsize (kp c))) then Some (msgOnRowsAskAutoSpan "N" "p" (rows (kN c)) (vsize (kp c)))
      else if Nat.eqb (cols (kM c)) (xDim ps) && Nat.eqb (cols (kN c)) (uDim ps) then None
      else if Nat.eqb (cols (kM c)) (fullXDim ps) && Nat.eqb (cols (kN c)) (fullUDim ps) then None
      else Some (msgOnColsOnPSXUDim "M" "N" (cols (kM c)) (cols (kN c)) ps)
  end.
