(** Specification for designs that also have clocked blocks: the next value of a register,
    which blocks the theorems are about.  Nothing here mentions nodes or driver maps. *)
From Verif Require Import Base M_Graph M_Range M_Netlist M_Annot M_Interval M_Heap M_Drivers M_Pending M_DFA M_Builder M_Slice M_Port M_Flow M_Proc
  S_Reach S_Netlist S_DFA S_Slice S_Port S_Flow S_Proc.

Section Spec.
Context {V : Type}.
Variable vzero : V.
Variable istrue : list V -> bool.
Variable hits : list V -> list V -> bool.
Notation expr := (expr V).
Notation env := (nat -> nat -> V).
Notation pst := (pst V).

(** What a block of non-blocking assignments makes of [e] when the values before the
    clock edge are [v]. *)
Fixpoint nrun (p : pst) (v e : env) : env :=
  match p with
  | PSkip => e
  | PAsg _ l r => assign vzero (lbits l) (eval vzero v r) e
  | PSeq p q => nrun q v (nrun p v e)
  | PIf c t => if istrue (eval vzero v c) then nrun t v e else e
  | PIfElse c t x => if istrue (eval vzero v c) then nrun t v e else nrun x v e
  | PCase c items => cnrun items (eval vzero v c) v e
  end
with cnrun (x : pcl V) (u : list V) (v e : env) : env :=
  match x with
  | PDefault p => nrun p v e
  | PItem xs p r => if existsb (fun y => hits u (eval vzero v y)) xs then nrun p v e else cnrun r u v e
  end.
(** The values after the clock edge. *)
Definition after_edge (x : fproc V) (v : env) : env := nrun (pr_body x) v v.

Variable resolveBits : bool.
Variable h : hints.
Variable ports : list fport.
Variable conns : list (fconn V).
Variable asgs : list (fasg V).
(** The combinational and the clocked blocks. *)
Variable procs : list (fproc V).
Variable regs : list (fproc V).

(** As [asg_ok]; assignments are non-blocking, and the right side may read what is
    written. *)
Definition nasg_ok (bl : bool) (l r : expr) : Prop :=
  bl = false /\
  (lvalue l /\ typed (fun _ _ => False) l /\ NoDup (lbits l) /\ in_driver ports l /\ (resolveBits = false -> uncut h l)) /\
  readable vzero resolveBits ports r /\ walkable vzero resolveBits r /\ ew l = ew r.
Fixpoint nstmt_ok (p : pst) : Prop :=
  match p with
  | PSkip => True
  | PAsg bl l r => nasg_ok bl l r
  | PSeq p q => nstmt_ok p /\ nstmt_ok q
  | PIf c t => cond_ok ports c /\ nstmt_ok t
  | PIfElse c t e => cond_ok ports c /\ nstmt_ok t /\ nstmt_ok e
  | PCase c items => cond_ok ports c /\ nitems_ok items
  end
with nitems_ok (x : pcl V) : Prop :=
  match x with
  | PDefault p => nstmt_ok p
  | PItem xs p r => (forall y, In y xs -> cond_ok ports y) /\ nstmt_ok p /\ nitems_ok r
  end.

(** An assignment of a constant. *)
Definition constant (p : pst) : Prop := match p with PAsg _ _ r => forall s i, ~ In (s, i) (reads r) | _ => False end.
(** One place of the block assigns bit [i] of [s], or several do: then all but the last
    one in the text assign constants, as the reset value in [if (rst) q <= 0; else q <= d;].
    Without this the result is wrong, see [c118_else_refuted]. *)
Fixpoint decided (p : pst) (s i : nat) : Prop :=
  match p with
  | PSkip => True
  | PAsg _ _ _ => True
  | PSeq p q => (decided p s i /\ ~ may q s i) \/ ((~ may p s i \/ constant p) /\ decided q s i)
  | PIf _ t => decided t s i
  | PIfElse _ t e => (decided t s i /\ ~ may e s i) \/ ((~ may t s i \/ constant t) /\ decided e s i)
  | PCase _ items => cdecided items s i
  end
with cdecided (x : pcl V) (s i : nat) : Prop :=
  match x with
  | PDefault p => decided p s i
  | PItem _ p r => (decided p s i /\ ~ cmay r s i) \/ ((~ may p s i \/ constant p) /\ cdecided r s i)
  end.

(** A clocked block: nothing but non-blocking assignments; two ranges written are equal or
    apart; and the last assignment to a bit decides it. *)
Record clocked_block (x : fproc V) : Prop := {
  ck_sens : pr_sens x <> [];
  ck_ok : nstmt_ok (pr_body x);
  ck_top : top (pr_body x);
  ck_aligned : forall p, proc_stmt vzero resolveBits h (pr_body x) = Some p -> aligned_writes (nb_writes (fun _ => false) p);
  ck_decided : forall s i, may (pr_body x) s i -> decided (pr_body x) s i }.

Definition register (s i : nat) : Prop := exists x, In x regs /\ may (pr_body x) s i.
(** Registers are variables that nothing else drives, and each belongs to one block. *)
Record wf_regs : Prop := {
  wr_nodup : NoDup regs;
  wr_block : forall x, In x regs -> clocked_block x;
  wr_alone : forall s i j, register s i -> ~ pdriven ports conns asgs procs s j;
  wr_port : forall s i p, register s i -> In p ports -> s <> fp_id p;
  wr_one : forall x y s i j, In x regs -> In y regs -> may (pr_body x) s i -> may (pr_body y) s j -> x = y }.

(** The two values agree on everything that neither the design drives nor a clock edge
    changes. *)
Definition ragree_undriven (v1 v2 : env) : Prop :=
  forall s i, ~ pdriven ports conns asgs procs s i -> ~ register s i -> v1 s i = v2 s i.
End Spec.
