(** Model of the build of a netlist for a design that also has procedural blocks:
    NetlistBuilder::handleProceduralBlock, source/NetlistBuilder.cpp 538-547, and the
    statements that DataFlowAnalysis.cpp visits, put together from [M_DFA.v] and
    [M_Flow.v].

    The body of a block is external: assignments, sequences, and if and case statements
    whose conditions are not constant.  Case statements without a default whose items cover
    all values, loops, calls and automatic variables are left out here ([M_DFA.v] has the
    former).  The condition of an if, the selector of a case and the expressions of its items
    are walked for their references in order; short-circuit and conditional operators in them
    are not modelled ([M_Expr.v]).  The continuous assignments come before the blocks; the
    order of the traversal is in [M_Order.v]. *)
From Verif Require Import Base M_Graph M_Range M_Netlist M_Annot M_Interval M_Heap M_Drivers M_Pending M_DFA M_Builder M_Slice M_Port M_Flow.

Section Proc.
Context {V : Type}.
Variable vzero : V.

Inductive pst :=
| PSkip
| PAsg (blocking : bool) (lhs rhs : expr V)
| PSeq (p q : pst)
| PIf (c : expr V) (t : pst)
| PIfElse (c : expr V) (t e : pst)
| PCase (c : expr V) (items : pcl)
(** The items of a case in order, each with its expressions, and what happens when none
    matches ([PSkip] without a default branch). *)
with pcl := PDefault (p : pst) | PItem (xs : list (expr V)) (p : pst) (r : pcl).
(** A block: the result of collectSensitivity ([M_Builder.v]) and the body. *)
Record fproc := FProc { pr_sens : list (nat * edgekind); pr_body : pst }.

Variable resolveBits : bool.
Variable h : hints.
Variable nm : nat -> str.

(** handle(AssignmentExpression), DataFlowAnalysis.cpp 249-349, both types integral. *)
Definition pasg_stmt (bl : bool) (l r : expr V) : option stmt :=
  let legacy := SLegacy 0 bl (refs l) (refs r) in
  if negb resolveBits then Some legacy
  else
    let lb := build vzero h l [] in
    let rb := build vzero h r [] in
    if negb (M_Slice.width lb =? M_Slice.width rb) then Some legacy
    else option_map (SAligned 0 bl) (segment_segs (alignSegments lb rb)).
(** The visits of the statements, 351-372 for the conditions. *)
Fixpoint proc_stmt (p : pst) : option stmt :=
  match p with
  | PSkip => Some SSkip
  | PAsg bl l r => pasg_stmt bl l r
  | PSeq p q => match proc_stmt p, proc_stmt q with Some a, Some b => Some (SSeq a b) | _, _ => None end
  | PIf c t => option_map (SIf 0 None (refs c)) (proc_stmt t)
  | PIfElse c t e => match proc_stmt t, proc_stmt e with Some a, Some b => Some (SIfElse 0 None (refs c) a b) | _, _ => None end
  | PCase c items => option_map (SCase 0 (refs c)) (proc_items items)
  end
with proc_items (x : pcl) : option clist :=
  match x with
  | PDefault p => option_map CDefault (proc_stmt p)
  | PItem xs p r => match proc_stmt p, proc_items r with Some a, Some b => Some (CCons (flat_map refs xs) a b) | _, _ => None end
  end.

Variable ports : list fport.
(** handleProceduralBlock, NetlistBuilder.cpp 538-547; [width]: the selectable width of
    a clock symbol. *)
Variable width : nat -> Z.
Definition run_proc (s : fl) (x : fproc) : dres fl :=
  match proc_stmt (pr_body x) with
  | None => DErr EAssert
  | Some p =>
      let b := fb s in
      do q <- run_block nm (fun _ => false) None (bnext b) p;
      let f := fxs q in
      let b1 := Bld (fnext f) (bnodes b) (bvt b) (bdm b) (bdeps b ++ fdeps f) (bpend b ++ fpend f) in
      let ds := adefs (cur q) in
      do b2 <- mergeDrivers variables nm (port_refs ports) width no_modports (pr_sens x) b1 (combine (seq 0 (length ds)) ds);
      DOk (FL b2 (fns s ++ fnodes f))
  end.
Fixpoint run_procs (s : fl) (l : list fproc) : dres fl :=
  match l with
  | [] => DOk s
  | x :: r => do s1 <- run_proc s x; run_procs s1 r
  end.
Definition pflow_state (cs : list (fconn V)) (as_ : list (fasg V)) (bs : list fproc) : dres fl :=
  do s <- flow_state vzero resolveBits h nm ports cs as_; run_procs s bs.
(** Phase 4, as in [M_Flow.flow]. *)
Definition pflow (cs : list (fconn V)) (as_ : list (fasg V)) (bs : list fproc) : option (fl * netlist) :=
  match pflow_state cs as_ bs with
  | DErr _ => None
  | DOk s =>
      match emit_all (bvt (fb s)) (bdm (fb s)) (bpend (fb s)) with
      | DErr _ => None
      | DOk ds => option_map (pair s) (drun (empty_netlist s) (bdeps (fb s) ++ ds))
      end
  end.
End Proc.
Arguments PSkip {V}.
Arguments PAsg {V} _ _ _.
Arguments PSeq {V} _ _.
Arguments PIf {V} _ _.
Arguments PIfElse {V} _ _ _.
Arguments PCase {V} _ _.
Arguments PDefault {V} _.
Arguments PItem {V} _ _ _.
Arguments FProc {V} _ _.
Arguments pst : clear implicits.
Arguments pcl : clear implicits.
Arguments fproc : clear implicits.
Scheme pst_mind := Induction for pst Sort Prop with pcl_mind := Induction for pcl Sort Prop.
