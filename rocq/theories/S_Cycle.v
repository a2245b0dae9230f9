(** Specification of loop reports. *)
From Verif Require Import Base.

(** The list starts with an element of least ID. *)
Definition Canonical (id : nat -> nat) (c : list nat) : Prop :=
  exists m t, c = m :: t /\ forall x, In x c -> id m <= id x.

(** Dictionary order on ID lists. *)
Inductive LexLt : list nat -> list nat -> Prop :=
| lex_nil y b : LexLt [] (y :: b)
| lex_head x y a b : x < y -> LexLt (x :: a) (y :: b)
| lex_tail x a b : LexLt a b -> LexLt (x :: a) (x :: b).
