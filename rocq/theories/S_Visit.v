(** What is part of a design: not in an uninstantiated instance. *)
From Verif Require Import Base M_Graph M_Range M_Netlist M_Text M_Interval M_Slice M_Port M_Inst.

Section Spec.
Context {V : Type}.
(** [y] is [t] or in it, and in no uninstantiated instance. *)
Inductive part_of : @sym V -> @sym V -> Prop :=
| Po_self y : part_of y y
| Po_gen u ms m y : In m ms -> part_of m y -> part_of (YGen u ms) y
| Po_scope ms m y : In m ms -> part_of m y -> part_of (YScope ms) y
| Po_inst i p d ms cs m y : In m ms -> part_of m y -> part_of (YInst i p d false ms cs) y.
Definition in_design (tops : list (@sym V)) (y : @sym V) : Prop := exists t, In t tops /\ part_of t y.
End Spec.
