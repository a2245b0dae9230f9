(** Specification vocabulary for designs whose pending R-values are resolved by threads. *)
From Verif Require Import Base M_Graph M_Range M_Netlist M_Annot M_Interval M_Heap M_Drivers M_Pending M_DFA M_Builder M_Slice M_Port M_Flow
  S_Graph S_Netlist S_Pending.

(** [nl] is a netlist that threads may leave behind when they resolve the queue of [s], the
    state of the builder after phases 1 to 3: the edges made so far are there, the queue is
    sorted by node address, dealt out to the threads, and every thread has run to its end
    in an interleaving of their atomic steps. *)
Definition resolved_in_parallel (s : fl) (nl : netlist) : Prop :=
  exists nl0 addr q' blocks progs sched st,
    (forall a b : nat, addr a = addr b -> a = b) /\ drun (empty_netlist s) (bdeps (fb s)) = Some nl0 /\
    par_setup (bvt (fb s)) (bdm (fb s)) addr (bpend (fb s)) q' blocks progs /\
    rexec sched (rinit nl0 progs) = Some st /\ rdone st /\ nl = rnl st.

(** The same nodes, with the same description, and the same enabled connections. *)
Definition same_connections (nl nl' : netlist) : Prop :=
  (forall n, In n (gnodes (ng nl)) <-> In n (gnodes (ng nl'))) /\ (forall n, ninf nl n = ninf nl' n) /\
  forall a b, Conn nl a b <-> Conn nl' a b.

(** The same members, in any order and number. *)
Definition same_set (l l' : list nat) : Prop := forall n, In n l <-> In n l'.
