(** How a bit of a design flows to another, through assignments and port connections. *)
From Verif Require Import Base M_Graph M_Range M_Netlist M_Builder M_Slice M_Port M_Flow S_Annot S_Pending S_Netlist S_Slice S_Flow S_Prec.

Section Spec.
Context {V : Type}.
Variable vzero : V.
Variable resolveBits : bool.
Variable ports : list fport.
Variable conns : list (fconn V).
Variable asgs : list (fasg V).

(** Bit [i] of [s] to bit [j] of [t]: by an assignment; into an instance; out of one. *)
Inductive carries (s i : nat) : nat -> nat -> Prop :=
| ca_asg a k t j : In a asgs -> nth_error (lbits (fa_lhs a)) k = Some (t, j) -> origin vzero resolveBits (fa_rhs a) k s i -> carries s i t j
| ca_in c p k : In c conns -> fc_out c = false -> In p ports -> fp_id p = fc_port c -> in_range (fp_drivers p) true k ->
    origin vzero resolveBits (fc_actual c) k s i -> carries s i (fp_sy p) k
| ca_out c p t j : In c conns -> fc_out c = true -> In p ports -> fp_id p = fc_port c -> in_range (fp_drivers p) false i -> s = fp_sy p ->
    nth_error (lbits (fc_actual c)) i = Some (t, j) -> carries s i t j.
Inductive flows (s i : nat) : nat -> nat -> Prop :=
| fl_here : flows s i s i
| fl_step t j u k : carries s i t j -> flows t j u k -> flows s i u k.
End Spec.
