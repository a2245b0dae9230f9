(** Specification for designs in which nothing is driven twice: they settle. *)
From Verif Require Import Base M_Graph M_Range M_Netlist M_Annot M_Interval M_Heap M_Drivers M_Pending M_DFA M_Builder M_Slice M_Port M_Flow M_Proc
  S_Reach S_Netlist S_DFA S_Slice S_Port S_Flow S_Proc S_Seq.

Section Spec.
Context {V : Type}.
Variable vzero : V.
Variable istrue : list V -> bool.
Variable hits : list V -> list V -> bool.
Variable ports : list fport.
Variable conns : list (fconn V).
Variable asgs : list (fasg V).
Variable procs regs : list (fproc V).
Notation env := (nat -> nat -> V).

(** What can give a bit its value. *)
Inductive giver :=
| GAsg (a : fasg V)
| GConn (c : fconn V)
| GProc (x : fproc V)
| GInput (p : fport).
Definition gives (g : giver) (s i : nat) : Prop :=
  match g with
  | GAsg a => In a asgs /\ In (s, i) (lbits (fa_lhs a))
  | GConn c => In c conns /\ if fc_out c then In (s, i) (lbits (fc_actual c)) else s = fc_sy c /\ i < fc_w c
  | GProc x => In x procs /\ may (pr_body x) s i
  | GInput p => fp_sy p = s /\ free_input ports conns p i
  end.
(** No bit is given a value twice; slang reports every bit of a connected input port as
    driven by the port; values have the declared width. *)
Record driven_once : Prop := {
  do_once : forall g g' s i, gives g s i -> gives g' s i -> g = g';
  do_conn : forall c, In c conns -> fc_out c = true -> NoDup (lbits (fc_actual c));
  do_cover : forall c i, In c conns -> fc_out c = false -> i < fc_w c ->
    exists p, In p ports /\ fp_sy p = fc_sy c /\ in_range (fp_drivers p) true i;
  do_asg : forall a v, In a asgs -> length (eval vzero v (fa_rhs a)) = ew (fa_rhs a);
  do_act : forall c v, In c conns -> fc_out c = false -> length (eval vzero v (fc_actual c)) = ew (fc_actual c) }.

(** The inputs of the design, the registers and the bits that nothing drives. *)
Record same_givens (v w : env) : Prop := {
  sg_in : forall p i, free_input ports conns p i -> v (fp_sy p) i = w (fp_sy p) i;
  sg_reg : forall t i, S_Seq.register regs t i -> v t i = w t i;
  sg_rest : ragree_undriven ports conns asgs procs regs v w }.

(** A run of the machine, one valuation for each clock cycle: settled in each cycle, the
    inputs and what nothing drives as in [ins], the registers first as in [ins 0] and then
    as the clock edge leaves them. *)
Record machine_run (ins run : nat -> env) : Prop := {
  mr_settled : forall k, psettled vzero istrue hits conns asgs procs (run k);
  mr_in : forall k p i, free_input ports conns p i -> run k (fp_sy p) i = ins k (fp_sy p) i;
  mr_rest : forall k, ragree_undriven ports conns asgs procs regs (run k) (ins k);
  mr_init : forall t i, S_Seq.register regs t i -> run 0 t i = ins 0 t i;
  mr_edge : forall k x t i, In x regs -> may (pr_body x) t i -> run (S k) t i = after_edge vzero istrue hits x (run k) t i }.
End Spec.
