(** What the driver query should say about a design. *)
From Verif Require Import Base M_Graph M_Range M_Netlist M_DFA M_Slice M_Port M_Flow M_Proc M_Query
  S_Annot S_Pending S_Netlist S_Query S_Slice S_Flow S_Proc S_Prec S_Prec2.

(** Node [d] is reported for bit [i] of the variable called [x], when bits [q] are asked for. *)
Definition reported (addr : nat -> nat) (nl : netlist) (x : str) (q : range) (d : nat) (i : Z) : Prop :=
  exists r, In (r, d) (getBitDrivers addr nl x q) /\ InRange i r.

Section Spec.
Context {V : Type}.
Variable vzero : V.
Variable resolveBits : bool.
Variable conns : list (fconn V).
Variable nm : nat -> str.

(** Without blocks: a node that is reported for a bit writes it, and a node reads it. *)
Definition drivers_right (nl : netlist) (role : nat -> item V) : Prop :=
  forall addr t q d i, (forall a b, addr a = addr b -> a = b) -> reported addr nl (nm t) q d i ->
  InRange i q /\ exists j n, i = Z.of_nat j /\ hasNode (ng nl) d = true /\ hasNode (ng nl) n = true /\ passes vzero resolveBits conns (role d) (role n) t j.
(** Conversely a node that passes the bit to another one is reported, if it passes no bits of
    other variables to it and what it passes lies in its range. *)
Definition drivers_found (nl : netlist) (role : nat -> item V) : Prop :=
  forall addr t q d n j, (forall a b, addr a = addr b -> a = b) -> hasNode (ng nl) d = true -> hasNode (ng nl) n = true ->
  passes vzero resolveBits conns (role d) (role n) t j -> (forall t' j', passes vzero resolveBits conns (role d) (role n) t' j' -> t' = t) -> within_node vzero resolveBits conns role d n ->
  InRange (Z.of_nat j) q -> reported addr nl (nm t) q d (Z.of_nat j).
(** With blocks: it writes the bit, or belongs to a block of which the text reads or assigns
    the bit. *)
Definition pdrivers_right (nl : netlist) (role : nat -> piece V) : Prop :=
  forall addr t q d i, (forall a b, addr a = addr b -> a = b) -> reported addr nl (nm t) q d i ->
  InRange i q /\ exists j, i = Z.of_nat j /\ hasNode (ng nl) d = true /\
    (piece_writes resolveBits conns (role d) t j \/ exists x, role d = Block x /\ (breads (pr_body x) t j \/ may (pr_body x) t j)).
(** No bit is written by two nodes. *)
Definition written_once (nl : netlist) (role : nat -> item V) : Prop :=
  forall n n' t j, hasNode (ng nl) n = true -> hasNode (ng nl) n' = true -> item_writes resolveBits conns (role n) t j -> item_writes resolveBits conns (role n') t j -> n = n'.
End Spec.
(** No bit of a variable has two nodes reported for it, whatever range is asked for. *)
Definition one_reported (nl : netlist) : Prop :=
  forall addr x q q' d d' i, (forall a b, addr a = addr b -> a = b) -> reported addr nl x q d i -> reported addr nl x q' d' i -> d = d'.
