(** Which bits may be passed from one piece of a design with procedural blocks to another,
    for what the edges of its netlist are annotated with. *)
From Verif Require Import Base M_Graph M_Range M_Netlist M_Annot M_Pending M_DFA M_Slice M_Port M_Flow M_Proc
  S_Annot S_Pending S_Netlist S_Slice S_Flow S_Proc S_Prec S_Prec2.

Section Spec.
Context {V : Type}.
Variable vzero : V.
Variable resolveBits : bool.
Variable width : nat -> Z.
Variable ports : list fport.
Variable conns : list (fconn V).
Variable asgs : list (fasg V).
Variable procs : list (fproc V).

(** [x] writes the bit and [y] reads it; or both are one block, which reads it; or [y] is
    the register of block [x] that holds it. *)
Definition ppasses (x y : piece V) (s i : nat) : Prop :=
  (piece_writes resolveBits conns x s i /\ piece_reads vzero resolveBits width conns y s i) \/
  (exists b, x = Block b /\ y = Block b /\ breads (pr_body b) s i) \/
  (exists b lo hi, x = Block b /\ y = Register b s lo hi /\ lo <= i <= hi).
(** A bit that an edge is annotated with may be passed along it. *)
Definition pannotates (nm : nat -> str) (nl : netlist) (role : nat -> piece V) : Prop :=
  forall a b x i, annotated nl a b x i -> exists s j, x = nm s /\ i = Z.of_nat j /\ ppasses (role a) (role b) s j.
(** The text has no bit index that [int32_t] cannot hold: [small_indices] for the bits that
    blocks read and write. *)
Definition small_blocks : Prop :=
  forall x s i, In x procs -> may (pr_body x) s i \/ breads (pr_body x) s i -> (Z.of_nat i < int32_max)%Z.
End Spec.
