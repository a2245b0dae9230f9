(** Specification for designs whose continuous assignments and blocks come in any order:
    the three kinds of things that a list of tasks contains. *)
From Verif Require Import Base M_DFA M_Builder M_Slice M_Flow M_Proc M_Order.

Section Spec.
Context {V : Type}.
Definition asgs_of (l : list (task V)) : list (fasg V) := flat_map (fun t => match t with TAsg a => [a] | TProc _ => [] end) l.
(** Blocks without a clock. *)
Definition procs_of (l : list (task V)) : list (fproc V) :=
  flat_map (fun t => match t with TAsg _ => [] | TProc x => match pr_sens x with [] => [x] | _ => [] end end) l.
(** Blocks with a clock. *)
Definition regs_of (l : list (task V)) : list (fproc V) :=
  flat_map (fun t => match t with TAsg _ => [] | TProc x => match pr_sens x with [] => [] | _ => [x] end end) l.
End Spec.
