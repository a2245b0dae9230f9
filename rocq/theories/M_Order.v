(** Model of Phase 2 for continuous assignments and procedural blocks in the order in which
    Phase 1 has found them: NetlistBuilder::handle, source/NetlistBuilder.cpp 524-536,
    BuildPipeline::deferBlock, source/BuildPipeline.cpp 16-18, and runPhase2Sequential,
    40-56.  [M_Proc.v] handles the continuous assignments first. *)
From Verif Require Import Base M_Graph M_Range M_Netlist M_Annot M_Interval M_Heap M_Drivers M_Pending M_DFA M_Builder M_Slice M_Port M_Flow M_Proc.

Section Order.
Context {V : Type}.
Variable vzero : V.
(** DeferredBlock, source/BuildPipeline.hpp 54-57. *)
Inductive task := TAsg (a : fasg V) | TProc (x : fproc V).

Variable resolveBits : bool.
Variable h : hints.
Variable nm : nat -> str.
Variable ports : list fport.
Variable width : nat -> Z.

(** 44-52. *)
Definition run_task (s : fl) (t : task) : dres fl :=
  match t with
  | TProc x => run_proc vzero resolveBits h nm ports width s x
  | TAsg a => run_asg vzero resolveBits h nm ports s a
  end.
Fixpoint run_tasks (s : fl) (l : list task) : dres fl :=
  match l with
  | [] => DOk s
  | t :: r => do s1 <- run_task s t; run_tasks s1 r
  end.
(** Phases 1 and 2. *)
Definition tflow_state (cs : list (fconn V)) (l : list task) : dres fl :=
  do b1 <- make_all_ports h bempty ports;
  do b2 <- connect_all vzero resolveBits nm ports b1 cs;
  run_tasks (FL b2 []) l.
(** Phase 4, as in [M_Flow.flow]. *)
Definition tflow (cs : list (fconn V)) (l : list task) : option (fl * netlist) :=
  match tflow_state cs l with
  | DErr _ => None
  | DOk s =>
      match emit_all (bvt (fb s)) (bdm (fb s)) (bpend (fb s)) with
      | DErr _ => None
      | DOk ds => option_map (pair s) (drun (empty_netlist s) (bdeps (fb s) ++ ds))
      end
  end.
End Order.
Arguments TAsg {V} _.
Arguments TProc {V} _.
Arguments task : clear implicits.
