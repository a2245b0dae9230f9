(** Model of include/netlist/VisitAll.hpp: what is visited before the compilation is
    frozen (tools/driver/driver.cpp 724-731, tools/report/report.cpp 211-214).

    The symbols are those of [M_Inst].  ASTVisitor::visitDefault is external: it visits the
    members of a scope in order, the expressions of the port connections of an instance
    and then its body, and the expressions and statements of a block, but no initializer
    of a declaration statement (the comment at 32-36). *)
From Verif Require Import Base M_Graph M_Range M_Netlist M_Text M_Interval M_Slice M_Port M_Inst.

Section Visit.
Context {V : Type}.

(** A statement, with the expressions that can be reached in it as numbers. *)
Inductive stm :=
| TExpr (e : nat)
| TList (l : list stm)
| TDecl (static : bool) (init : option nat).          (* VariableDeclStatement *)

(** The handler for VariableDeclStatement, 37-43; others by default. *)
Fixpoint visit_stm (s : stm) : list nat :=
  match s with
  | TExpr e => [e]
  | TList l => flat_map visit_stm l
  | TDecl static init => if static then [] else match init with Some e => [e] | None => [] end
  end.

(** What is visited: a value symbol, an expression of a block, a port connection. *)
Inductive fev :=
| FVal (sy : nat)
| FExpr (block e : nat)
| FConn (i : nat) (c : @iconn V).

Variable body : nat -> stm.

(** The handlers for ValueSymbol, 21, and InstanceSymbol, 26-30; the rest by default. *)
Fixpoint visit_all (y : @sym V) : list fev :=
  match y with
  | YPort _ _ _ => []
  | YVar s _ _ => [FVal s]
  | YBlock id _ => map (FExpr id) (visit_stm (body id))
  | YGen _ ms => flat_map visit_all ms
  | YScope ms => flat_map visit_all ms
  | YOther => []
  | YInst i _ _ uninst ms cs => if uninst then [] else map (FConn i) cs ++ flat_map visit_all ms
  end.
(** VisitAll::count, 19-21. *)
Definition is_val (f : fev) : bool := match f with FVal _ => true | _ => false end.
Definition visit_count (tops : list (@sym V)) : nat := length (filter is_val (flat_map visit_all tops)).

(** AbstractFlowAnalysis::visitStmt (external): the expressions that the analysis of a
    block asks for.  [statics]: whether it asks for initializers of static variables. *)
Fixpoint asked (statics : bool) (s : stm) : list nat :=
  match s with
  | TExpr e => [e]
  | TList l => flat_map (asked statics) l
  | TDecl static init => if static && negb statics then [] else match init with Some e => [e] | None => [] end
  end.
End Visit.
Arguments FVal {V} _.
Arguments FExpr {V} _ _.
Arguments FConn {V} _ _.
