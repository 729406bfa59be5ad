(** SpecMessages.v -- C48: what it means for a message to name an operand and to give its size. *)
From Coq Require Import String.
From Verif Require Import Base Messages.
Local Open Scope string_scope.

(** [s] occurs in [msg] *)
Definition contains (msg s : string) : Prop := exists a b, msg = a ++ s ++ b.
(** [msg] says that operand [name] has [k] rows (cols) *)
Definition says_rows (msg name : string) (k : nat) : Prop := contains msg (name ++ " has " ++ dec k ++ " rows").
Definition says_cols (msg name : string) (k : nat) : Prop := contains msg (name ++ " has " ++ dec k ++ " cols").
