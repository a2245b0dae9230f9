(** Model of the procedural data-flow analysis, source/DataFlowAnalysis.cpp and
    DataFlowAnalysis.hpp, with NetlistBuilder::addDriversToNode, merge and addRvalue
    (NetlistBuilder.cpp 236-278).

    The AST is external.  What the analysis sees of a block is the small language [stmt]
    below: an assignment is given by its segments (the result of alignSegments, modelled
    in [M_Slice.v]) or, on the legacy path, by the value paths of its two sides; a
    condition or selector by the value paths it reads.  Symbols are numbered by their
    ValueTracker slot ([M_Slots.v]), so [adefs] is indexed by the symbol.  Loops, calls,
    jumps, force statements (prohibitLValue) and modport reads are not modelled.

    The walk over if and case statements is that of slang's AbstractFlowAnalysis
    (external), by its contract: the branches start from copies of the state after the
    condition, a branch that a constant condition excludes starts from unreachableState,
    and the results are joined with joinState. *)
From Verif Require Import Base M_Graph M_Range M_Netlist M_Annot M_Interval M_Heap M_Drivers M_Pending.

(** * State *)
(** AnalysisState, DataFlowAnalysis.hpp 26-43. *)
Record astate := AS { adefs : list dmap; anode : option nat; acond : option nat; areach : bool }.

(** What the analysis does to the netlist, as a trace: the next node id, the nodes
    created, the calls of addDependency, the R-values handed to the pending queue; and
    pendingLValues (DataFlowAnalysis.hpp 86). The label of an assignment or condition
    names its place in the source. *)
Inductive nk := KAssign (l : nat) | KCond (l : nat) | KCase (l : nat) | KConst | KMerge.
Record fx := FX { fnext : nat; fnodes : list (nat * nk); fdeps : list dep; fpend : list pend;
                  flv : list (nat * range * nat) }.
Record st := ST { cur : astate; fxs : fx }.

Definition with_cur (s : st) (a : astate) : st := ST a (fxs s).
Definition with_fx (s : st) (f : fx) : st := ST (cur s) f.
Definition emit (s : st) (ds : list dep) : st :=
  let f := fxs s in with_fx s (FX (fnext f) (fnodes f) (fdeps f ++ ds) (fpend f) (flv f)).
Definition queue (s : st) (p : pend) : st :=
  let f := fxs s in with_fx s (FX (fnext f) (fnodes f) (fdeps f) (fpend f ++ [p]) (flv f)).
Definition push_lv (s : st) (x : nat * range * nat) : st :=
  let f := fxs s in with_fx s (FX (fnext f) (fnodes f) (fdeps f) (fpend f) (flv f ++ [x])).
(** nodeFactory.create... followed by graph.addNode. *)
Definition create (s : st) (k : nk) : st * nat :=
  let f := fxs s in
  (with_fx s (FX (S (fnext f)) (fnodes f ++ [(fnext f, k)]) (fdeps f) (fpend f) (flv f)), fnext f).

(** valueDrivers[i]; addDrivers grows the vector up to the slot (ValueTracker.cpp 60-72). *)
Definition defs (a : astate) (sy : nat) : dmap := nth sy (adefs a) dm_empty.
Fixpoint put_defs (l : list dmap) (i : nat) (d : dmap) : list dmap :=
  match i, l with
  | O, [] => [d]
  | O, _ :: r => d :: r
  | S j, [] => dm_empty :: put_defs [] j d
  | S j, x :: r => x :: put_defs r j d
  end.
Definition trackDrivers (a : astate) (sy : nat) (b : range) (dl : dlist) (merge : bool) : dres astate :=
  do d <- addDrivers (defs a sy) b dl merge;
  DOk (AS (put_defs (adefs a) sy d) (anode a) (acond a) (areach a)).

Section Analysis.
(** toSymbolRef of a symbol; whether it is an automatic variable; DataFlowAnalysis.hpp
    82. *)
Variable nm : nat -> str.
Variable automatic : nat -> bool.
Variable external : option nat.

(** * References *)
(** NetlistBuilder::addRvalue, NetlistBuilder.cpp 259-278, not a modport port. *)
Definition addRvalue (s : st) (sy : nat) (b : range) (n : option nat) : st :=
  queue s (Pend sy (nm sy) b n EKNone).

(** addDriversToNode, NetlistBuilder.cpp 236-245. *)
Definition addDriversToNode (dl : dlist) (n sy : nat) (b : range) : list dep :=
  map (fun k => DDep k n (Some (nm sy)) b EKNone) dl.

(** The loop at 75-108; the flag tells the early return at 93. *)
Fixpoint rv_loop (d : dmap) (n sy : nat) (b : range) (its : list (iv nat)) : dres (bool * list dep) :=
  match its with
  | [] => DOk (false, [])
  | it :: rest =>
      do l <- getDriverList d (ival it);
      let ib := Range (ilo it) (ihi it) in
      if contains ib b then DOk (true, addDriversToNode l n sy b)
      else
        do (stop, ds) <- rv_loop d n sy b rest;
        DOk (stop, (if contains b ib then addDriversToNode l n sy b else []) ++ ds)
  end.

Definition orElse (a b : option nat) : option nat := match a with Some _ => a | None => b end.

(** handleRvalue, 33-129. *)
Definition handleRvalue (s : st) (sy : nat) (b : range) : dres st :=
  match nth_error (adefs (cur s)) sy with
  | None => DOk (addRvalue s sy b (orElse (anode (cur s)) external))   (* 50-58 *)
  | Some d =>
      match anode (cur s) with
      | None => DOk (addRvalue s sy b external)                        (* 65-68 *)
      | Some n =>
          do (stop, ds) <- rv_loop d n sy b (dm_find d b);
          let s1 := emit s ds in
          if stop : bool then DOk s1
          else DOk (fold_left (fun s2 x => addRvalue s2 sy (Range (ilo x) (ihi x)) (Some n))
                      (difference [IV (lower b) (upper b) 0] (ivs d)) s1)  (* 114-128 *)
      end
  end.

(** handleLvalue, 133-150.  A null current node is impossible here: every call comes
    after the updateNode of the enclosing assignment; the model reports it as EAssert. *)
Definition handleLvalue (blocking : bool) (s : st) (sy : nat) (b : range) : dres st :=
  match anode (cur s) with
  | None => DErr EAssert
  | Some n =>
      if blocking then do a <- trackDrivers (cur s) sy b [n] false; DOk (with_cur s a)
      else DOk (push_lv s (sy, b, n))
  end.

(** noteReference, 154-194, for a path with a root symbol; [lv]: isLValue and
    isBlocking. *)
Definition ref := (nat * range)%type.
Definition noteReference (lv : option bool) (s : st) (x : ref) : dres st :=
  if negb (areach (cur s)) then DOk s
  else if automatic (fst x) then DOk s
  else match lv with
       | Some blocking => handleLvalue blocking s (fst x) (snd x)
       | None => handleRvalue s (fst x) (snd x)
       end.
Fixpoint each {A} (f : st -> A -> dres st) (s : st) (l : list A) : dres st :=
  match l with
  | [] => DOk s
  | x :: r => do s1 <- f s x; each f s1 r
  end.

(** * Assignments *)
(** updateNode, 196-213. *)
Definition updateNode (s : st) (n : nat) (conditional : bool) : st :=
  let s1 := match acond (cur s) with Some c => emit s [DPlain c n] | None => s end in
  let a := cur s1 in
  with_cur s1 (AS (adefs a) (Some n) (if conditional then Some n else None) (areach a)).

(** The right-hand sources of a segment, with the segment's bits already mapped to bits
    of the symbol (482-497, [M_Slice.v]). *)
Inductive rsrc := RLsp (x : ref) | ROpaque (l : list ref) | RPadding | RConst.
Record seg := Seg { slhs : list ref; srhs : list rsrc }.

(** 312-341 for one source. *)
Definition drive_rhs (s : st) (r : rsrc) : dres st :=
  match r with
  | RLsp (sy, b) => handleRvalue s sy b
  | ROpaque l => each (noteReference None) s l
  | RPadding => DOk s
  | RConst =>
      match anode (cur s) with
      | None => DOk s
      | Some n => let '(s1, c) := create s KConst in DOk (emit s1 [DPlain c n])
      end
  end.

(** One iteration of the loop at 287-343. *)
Definition do_seg (l : nat) (blocking : bool) (savedNode savedCond : option nat) (s : st) (g : seg)
    : dres st :=
  let a := cur s in
  let s0 := with_cur s (AS (adefs a) savedNode savedCond (areach a)) in
  let '(s1, n) := create s0 (KAssign l) in
  do s2 <- each (fun s x => handleLvalue blocking s (fst x) (snd x)) (updateNode s1 n false) (slhs g);
  each drive_rhs s2 (srhs g).

(** handle(AssignmentExpression), the bit-aligned path, 283-349. *)
Definition do_aligned (s : st) (l : nat) (blocking : bool) (gs : list seg) : dres st :=
  each (do_seg l blocking (anode (cur s)) (acond (cur s))) s gs.

(** handleAssignmentLegacy, 227-247, not an lvalue argument. *)
Definition do_legacy (s : st) (l : nat) (blocking : bool) (lhs rhs : list ref) : dres st :=
  let '(s1, n) := create s (KAssign l) in
  do s2 <- each (noteReference (Some blocking)) (updateNode s1 n false) lhs;
  each (noteReference None) s2 rhs.

(** * States at joins *)
(** 378-389 for one symbol, then for all slots of [other]. *)
Fixpoint merge_entries (a : astate) (sy : nat) (d : dmap) (its : list (iv nat)) : dres astate :=
  match its with
  | [] => DOk a
  | it :: r =>
      do l <- getDriverList d (ival it);
      do a1 <- trackDrivers a sy (Range (ilo it) (ihi it)) l true;
      merge_entries a1 sy d r
  end.
Fixpoint merge_defs (a : astate) (sy : nat) (ds : list dmap) : dres astate :=
  match ds with
  | [] => DOk a
  | d :: r => do a1 <- merge_entries a sy d (ivs d); merge_defs a1 (S sy) r
  end.

(** NetlistBuilder::merge, NetlistBuilder.cpp 247-257. *)
Definition b_merge (s : st) (x y : nat) : st * nat :=
  if Nat.eqb x y then (s, x)
  else let '(s1, m) := create s KMerge in (emit s1 [DPlain x m; DPlain y m], m).
(** mergeNodes, 391-410. *)
Definition mergeNodes (s : st) (x y : option nat) : st * option nat :=
  match x, y with
  | Some p, Some q => if Nat.eqb p q then (s, None)
                      else let '(s1, m) := b_merge s p q in (s1, Some m)
  | _, None => (s, x)
  | None, Some _ => (s, y)
  end.

(** mergeStates, 374-420; [result] is [cur s]. *)
Definition mergeStates (s : st) (other : astate) : dres st :=
  do a <- merge_defs (cur s) 0 (adefs other);
  let '(s1, n) := mergeNodes (with_cur s a) (anode a) (anode other) in
  let '(s2, c) := mergeNodes s1 (acond a) (acond other) in
  DOk (with_cur s2 (AS (adefs a) n c (areach a))).

(** joinState, 422-430; copyState (442-454) makes an equal state. *)
Definition joinState (s : st) (other : astate) : dres st :=
  if Bool.eqb (areach (cur s)) (areach other) then mergeStates s other
  else if negb (areach (cur s)) then DOk (with_cur s other)
  else DOk s.
(** meetState, 432-440. *)
Definition meetState (s : st) (other : astate) : dres st :=
  if negb (areach other)
  then DOk (with_cur s (AS (adefs (cur s)) (anode (cur s)) (acond (cur s)) false))
  else mergeStates s other.

(** unreachableState and topState, 456-463. *)
Definition unreachableState : astate := AS [] None None false.
Definition topState : astate := AS [] None None true.

(** * Statements *)
(** [SIf l k c t] and [SIfElse l k c t e]: label, the value of the condition if it is
    constant, its reads, the branches.  [SCase l c items]: label, reads of the selector,
    and for each item the reads of its expressions and its statement; the list ends with
    [CDefault p], what happens when no item matches ([SSkip] without a default branch),
    or with [CFull] when the items are exhaustive. *)
Inductive stmt :=
| SSkip
| SAligned (l : nat) (blocking : bool) (gs : list seg)
| SLegacy (l : nat) (blocking : bool) (lhs rhs : list ref)
| SSeq (p q : stmt)
| SIf (l : nat) (k : option bool) (c : list ref) (t : stmt)
| SIfElse (l : nat) (k : option bool) (c : list ref) (t e : stmt)
| SCase (l : nat) (c : list ref) (items : clist)
with clist := CFull | CDefault (p : stmt) | CCons (c : list ref) (p : stmt) (r : clist).

(** AbstractFlowAnalysis::visitStmt(ConditionalStatement) (external): the states that
    enter the two branches. *)
Definition branch_in (k : option bool) (a : astate) : astate * astate :=
  match k with
  | None => (a, a)
  | Some true => (a, unreachableState)
  | Some false => (unreachableState, a)
  end.

(** handle(ConditionalStatement), 351-365, and the visit of the conditions. *)
Definition enter_if (s : st) (l : nat) (k : option bool) (c : list ref) : dres st :=
  each (noteReference None)
    (match k with
     | Some _ => s
     | None => let '(s1, n) := create s (KCond l) in updateNode s1 n true
     end) c.
(** handle(CaseStatement), 367-372, and the visit of the selector. *)
Definition enter_case (s : st) (l : nat) (c : list ref) : dres st :=
  let '(s1, n) := create s (KCase l) in each (noteReference None) (updateNode s1 n true) c.

Fixpoint exec (s : st) (p : stmt) : dres st :=
  match p with
  | SSkip => DOk s
  | SAligned l bl gs => do_aligned s l bl gs
  | SLegacy l bl lhs rhs => do_legacy s l bl lhs rhs
  | SSeq p q => do s1 <- exec s p; exec s1 q
  | SIf l k c t =>
      do s1 <- enter_if s l k c;
      let '(inT, inF) := branch_in k (cur s1) in
      do s2 <- exec (with_cur s1 inT) t;
      joinState s2 inF
  | SIfElse l k c t e =>
      do s1 <- enter_if s l k c;
      let '(inT, inF) := branch_in k (cur s1) in
      do s2 <- exec (with_cur s1 inT) t;
      do s3 <- exec (with_cur s2 inF) e;
      joinState s3 (cur s2)
  | SCase l c items =>
      do s1 <- enter_case s l c;
      exec_items s1 (cur s1) unreachableState items
  end
(** The items of a case: [a0] is the state that enters each of them, [acc] the join of
    the items so far (external). *)
with exec_items (s : st) (a0 acc : astate) (items : clist) : dres st :=
  match items with
  | CFull => DOk (with_cur s acc)
  | CDefault p => do s1 <- exec (with_cur s a0) p; joinState (with_cur s1 acc) (cur s1)
  | CCons c p r =>
      do s1 <- each (noteReference None) (with_cur s a0) c;
      do s2 <- exec s1 p;
      do s3 <- joinState (with_cur s2 acc) (cur s2);
      exec_items s3 a0 (cur s3) r
  end.

(** finalize, 131 and 22-31. *)
Fixpoint process_lv (a : astate) (l : list (nat * range * nat)) : dres astate :=
  match l with
  | [] => DOk a
  | (sy, b, n) :: r => do a1 <- trackDrivers a sy b [n] false; process_lv a1 r
  end.
Definition finalize (s : st) : dres st :=
  do a <- process_lv (cur s) (flv (fxs s));
  DOk (ST a (FX (fnext (fxs s)) (fnodes (fxs s)) (fdeps (fxs s)) (fpend (fxs s)) [])).

(** A whole block: NetlistBuilder::handleProceduralBlock runs the analysis from
    topState and then finalizes it. [n0]: the first free node id. *)
Definition start (n0 : nat) : st := ST topState (FX n0 [] [] [] []).
Definition run_block (n0 : nat) (p : stmt) : dres st :=
  do s <- exec (start n0) p; finalize s.
End Analysis.
