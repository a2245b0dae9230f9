(** What the statistics of a list of rational task times are. *)
From Coq Require Import QArith.
From Verif Require Import Base.

(** Sum, smallest and largest element. *)
Inductive Sum : list Q -> Q -> Prop :=
| Sum_nil q : q == 0 -> Sum [] q
| Sum_cons x l s q : Sum l s -> q == x + s -> Sum (x :: l) q.
Definition Least (l : list Q) (m : Q) : Prop := In m l /\ forall x, In x l -> m <= x.
Definition Greatest (l : list Q) (m : Q) : Prop := In m l /\ forall x, In x l -> x <= m.

(** The middle element, or half-way between the two middle elements. *)
Definition below (A : list Q) (x : Q) : Prop := forall a, In a A -> a <= x.
Definition above (B : list Q) (x : Q) : Prop := forall b, In b B -> x <= b.
Inductive Median (l : list Q) (m : Q) : Prop :=
| Med_odd A B : Permutation l (A ++ [m] ++ B) -> length A = length B ->
    below A m -> above B m -> Median l m
| Med_even A x y B : Permutation l (A ++ [x; y] ++ B) -> length A = length B ->
    below A x -> x <= y -> above B y -> m + m == x + y -> Median l m.
