(** Model of the walk over expressions in the data-flow analysis: handle(select) of
    DataFlowAnalysis.hpp 139-185 with the expression visits of slang's AbstractFlowAnalysis
    (external), which DataFlowAnalysis.cpp 245, 324 and 357-364 start.

    [M_DFA.v] gives an expression by its references; here it is a tree, so that the states
    split and joined inside an expression are visible.  Contract of the external visits: a
    conditional expression visits its arms from the two states of its condition and joins
    them; a condition that leaves one state is copied.  Whether [&&], [||] and [!] split the state
    is left open by two parameters.  Constant conditions, [->], [<->], patterns, calls and
    assignments inside expressions are not modelled. *)
From Verif Require Import Base M_Graph M_Range M_Netlist M_Annot M_Interval M_Heap M_Drivers M_Pending M_DFA.

(** [XSeq a b]: operands in order; a select with a variable index is the index, then the
    reference. *)
Inductive vx :=
| XNone
| XRef (r : ref)
| XSeq (a b : vx)
| XNot (a : vx)
| XAnd (a b : vx)
| XOr (a b : vx)
| XCond (c a b : vx).

Section Walk.
Variable nm : nat -> str.
Variable automatic : nat -> bool.
Variable external : option nat.
Variable short_circuit : bool.   (* && and || are branches *)
Variable not_splits : bool.      (* ! visits its operand as a condition *)

(** One state, or one state for each outcome (the first one current). *)
Definition walked := (st * option astate)%type.
Definition unsplit (r : walked) : dres st :=
  match snd r with None => DOk (fst r) | Some f => joinState (fst r) f end.
Definition outcomes (r : walked) : st * astate :=
  (fst r, match snd r with None => cur (fst r) | Some f => f end).

Fixpoint visit (s : st) (e : vx) : dres walked :=
  match e with
  | XNone => DOk (s, None)
  | XRef r => do s1 <- noteReference nm automatic external None s r; DOk (s1, None)
  | XSeq a b =>
      do r <- visit s a; do s1 <- unsplit r;
      do q <- visit s1 b; do s2 <- unsplit q; DOk (s2, None)
  | XNot a =>
      do r <- visit s a;
      if not_splits then
        let '(s1, f) := outcomes r in DOk (with_cur s1 f, Some (cur s1))
      else do s1 <- unsplit r; DOk (s1, None)
  | XAnd a b =>
      do r <- visit s a;
      if short_circuit then
        let '(s1, f) := outcomes r in
        do q <- visit s1 b;
        let '(s2, f2) := outcomes q in
        do s3 <- joinState (with_cur s2 f2) f;
        DOk (with_cur s3 (cur s2), Some (cur s3))
      else do s1 <- unsplit r; do q <- visit s1 b; do s2 <- unsplit q; DOk (s2, None)
  | XOr a b =>
      do r <- visit s a;
      if short_circuit then
        let '(s1, f) := outcomes r in
        do q <- visit (with_cur s1 f) b;
        let '(s2, f2) := outcomes q in
        do s3 <- joinState s2 (cur s1);
        DOk (s3, Some f2)
      else do s1 <- unsplit r; do q <- visit s1 b; do s2 <- unsplit q; DOk (s2, None)
  | XCond c a b =>
      do r <- visit s c;
      let '(s1, f) := outcomes r in
      do q <- visit s1 a; do s2 <- unsplit q;
      do q2 <- visit (with_cur s2 f) b; do s3 <- unsplit q2;
      do s4 <- joinState s3 (cur s2); DOk (s4, None)
  end.

(** handleAssignmentLegacy, 227-247, with the right-hand side as a tree. *)
Definition assign_expr (s : st) (l : nat) (blocking : bool) (lhs : list ref) (rhs : vx) : dres st :=
  let '(s1, n) := create s (KAssign l) in
  do s2 <- each (noteReference nm automatic external (Some blocking)) (updateNode s1 n false) lhs;
  do r <- visit s2 rhs; unsplit r.

(** handle(ConditionalStatement), 351-365, with the condition as a tree: the state for each
    branch. *)
Definition enter_if_expr (s : st) (l : nat) (c : vx) : dres (st * astate) :=
  let '(s1, n) := create s (KCond l) in
  do r <- visit (updateNode s1 n true) c; DOk (outcomes r).
Definition exec_if_expr (s : st) (l : nat) (c : vx) (t e : stmt) : dres st :=
  do (s1, f) <- enter_if_expr s l c;
  do s2 <- exec nm automatic external s1 t;
  do s3 <- exec nm automatic external (with_cur s2 f) e;
  joinState s3 (cur s2).
End Walk.
