(** Specification vocabulary for the pending R-value queue and its resolution. *)
From Coq Require Export Sorting.Sorted.
From Verif Require Import Base M_Graph M_Range M_Netlist M_Annot M_Interval M_Heap M_Drivers S_Annot M_Pending.

(** Does the item have a target node, and is it [n]? *)
Definition has_target (p : pend) : bool := match pnode p with Some _ => true | None => false end.
Definition targets (n : nat) (p : pend) : bool := match pnode p with Some m => Nat.eqb m n | None => false end.

Definition dsrc (d : dep) : nat := match d with DPlain a _ => a | DDep a _ _ _ _ => a end.
Definition dtgt (d : dep) : nat := match d with DPlain _ b => b | DDep _ b _ _ _ => b end.

(** Each thread's program writes to targets of its own. *)
Definition own_targets (progs : nat -> list dep) : Prop :=
  forall t t' d d', In d (progs t) -> In d' (progs t') -> dtgt d = dtgt d' -> t = t'.

(** Nothing is left to do. *)
Definition rdone (s : rstate) : Prop := forall t, fst (rth s t) = [].
Definition pdone (s : pstate) : Prop := waiting s = [] /\ forall t, running s t = None.

(** The same edges with the same annotations, pair by pair. *)
Definition same_annotations (nl nl' : netlist) : Prop :=
  forall a b, pair_ann nl a b = pair_ann nl' a b.
Definition has_edge (nl : netlist) (a b : nat) : Prop := pair_ann nl a b <> [].

(** The bits of [s] annotated on the edges a -> b. *)
Definition annotated (nl : netlist) (a b : nat) (s : str) (i : Z) : Prop :=
  exists x, In x (pair_ann nl a b) /\ asym x = Some s /\ bit_in (abounds x) i.

(** What resolveParallel may run: the queue in some order sorted by node address, its runs
    dealt out in consecutive blocks, one thread program per block. *)
Record par_setup (vt : vtracker) (dm : nat -> option dmap) (addr : nat -> nat)
    (q : list pend) (q' : list pend) (blocks : list (list (list pend))) (progs : nat -> list dep) : Prop := {
  ps_perm : Permutation q q';
  ps_sorted : StronglySorted (node_le addr) q';
  ps_blocks : concat blocks = runs q';
  ps_progs : forall t, emit_all vt dm (concat (nth t blocks [])) = DOk (progs t) }.
