(** Specification relations on netlists. *)
From Verif Require Import Base M_Graph S_Graph S_Reach M_Range M_Netlist.

(** The container invariant the queries rely on; every reachable container
    satisfies it (C01). *)
Definition WF (nl : netlist) : Prop := Mirror (ng nl).

(** [a] is connected to [b] by an enabled edge of the graph. *)
Definition Conn (nl : netlist) (a b : nat) : Prop :=
  exists e, In e (outs (nst (ng nl) a)) /\ etgt e = b /\ adis (eatt nl (eid e)) = false.

(** A combinational step: enabled, and not into a register. *)
Definition Comb (nl : netlist) (a b : nat) : Prop :=
  Conn nl a b /\ nkind (ninf nl b) <> KState.

(** The same read backwards from the sink: the driver is not a register. *)
Definition CombBack (nl : netlist) (b a : nat) : Prop :=
  Conn nl a b /\ nkind (ninf nl a) <> KState.

(** A connection of one or more enabled edges whose interior nodes are not
    registers (the end points may be). *)
Definition CombLink (nl : netlist) (a b : nat) : Prop :=
  exists mid, Walk (Conn nl) (a :: mid ++ [b]) /\
              forall m, In m mid -> nkind (ninf nl m) <> KState.
