(** Model of parts of source/NetlistBuilder.cpp: collectSensitivity, interface references,
    addRvalue, hookupOutputPort, mergeDrivers; and of source/NodeFactory.cpp 55-86.

    Symbols (values and ports) are numbers.  What the builder asks the AST about a symbol
    are the section variables below.  The central driver map is a map from symbols to
    driver maps; its slots are the subject of [M_Slots.v].  Calls of addDependency are
    recorded as a list, as in [M_DFA.v]. *)
From Verif Require Import Base M_Graph M_Range M_Netlist M_Annot M_Interval M_Heap M_Drivers M_Pending M_DFA.

(** * Sensitivity *)
(** What collectSensitivity sees of a procedural block.  An event is an edge kind and the
    symbol of its expression ([None]: not a value expression); [EvOther] is a member of
    an event list that is not a signal event, for which the cast at 158 fails. *)
Inductive prockind := PAlwaysFF | PAlways | POther.
Inductive event := EvSignal (k : edgekind) (sy : option nat) | EvOther.
Inductive timing := TSignal (k : edgekind) (sy : option nat) | TList (l : list event) | TOther.
Inductive body := BTimed (t : timing) | BAssertion | BUntimed.

(** recordEvent, 139-152: the flag sawCombEvent and the result. *)
Definition recordEvent (acc : bool * list (nat * edgekind)) (k : edgekind) (sy : option nat)
    : bool * list (nat * edgekind) :=
  if edgekind_eqb k EKNone then (true, snd acc)
  else match sy with
       | Some s => (fst acc, snd acc ++ [(s, k)])
       | None => acc
       end.
(** The loop at 157-159; [None]: the cast fails. *)
Fixpoint recordEvents (acc : bool * list (nat * edgekind)) (l : list event)
    : option (bool * list (nat * edgekind)) :=
  match l with
  | [] => Some acc
  | EvSignal k sy :: r => recordEvents (recordEvent acc k sy) r
  | EvOther :: _ => None
  end.

(** collectSensitivity, 115-166. *)
Definition collectSensitivity (pk : prockind) (b : body) : option (list (nat * edgekind)) :=
  match pk with
  | POther => Some []
  | _ =>
      match b with
      | BAssertion | BUntimed => Some []
      | BTimed t =>
          match match t with
                | TSignal k sy => Some (recordEvent (false, []) k sy)
                | TList l => recordEvents (false, []) l
                | TOther => Some (false, [])
                end with
          | None => None
          | Some (true, _) => Some []
          | Some (false, l) => Some l
          end
      end
  end.

(** * Interface references *)
(** The paths that ValuePath::expandIndirectRefs (external) finds behind a modport port:
    a variable with its bounds, a nested modport port with the paths behind it, or
    another symbol. *)
Inductive ipath := IVar (sy : nat) (b : range) | IPort (l : list ipath) | IOther.
(** _resolveInterfaceRef, 169-217. *)
Fixpoint resolve (p : ipath) : list (nat * range) :=
  match p with
  | IVar sy b => [(sy, b)]
  | IPort l => flat_map resolve l
  | IOther => []
  end.
(** resolveInterfaceRef, 219-234. *)
Definition resolveInterfaceRef (l : list ipath) : list (nat * range) := flat_map resolve l.

(** * The builder *)
Inductive bnode := BPort (port : nat) (b : range) | BVariable (sy : nat) (b : range) | BState (sy : nat) (b : range) | BConst.
Record bld := Bld { bnext : nat; bnodes : list (nat * bnode); bvt : vtracker; bdm : nat -> option dmap;
                    bdeps : list dep; bpend : list pend }.
Definition bemit (s : bld) (ds : list dep) : bld :=
  Bld (bnext s) (bnodes s) (bvt s) (bdm s) (bdeps s ++ ds) (bpend s).
Definition bqueue (s : bld) (ps : list pend) : bld :=
  Bld (bnext s) (bnodes s) (bvt s) (bdm s) (bdeps s) (bpend s ++ ps).

(** createPort, createVariable, createState, NodeFactory.cpp 55-86: the symbol under
    which the node is registered, its bounds. *)
Definition register (s : bld) (k : bnode) (sy : nat) (b : range) : bld * nat :=
  (Bld (S (bnext s)) (bnodes s ++ [(bnext s, k)]) (vt_insert (bvt s) sy b (bnext s)) (bdm s) (bdeps s) (bpend s),
   bnext s).
Definition createPort (s : bld) (port : nat) (b : range) : bld * nat := register s (BPort port b) port b.
Definition createVariable (s : bld) (sy : nat) (b : range) : bld * nat := register s (BVariable sy b) sy b.
Definition createState (s : bld) (sy : nat) (b : range) : bld * nat := register s (BState sy b) sy b.

(** driverMap.addDrivers, NetlistBuilder.hpp 232-245. *)
Definition baddDrivers (s : bld) (sy : nat) (b : range) (dl : dlist) (merge : bool) : dres bld :=
  do d <- addDrivers (match bdm s sy with Some d => d | None => dm_empty end) b dl merge;
  DOk (Bld (bnext s) (bnodes s) (bvt s) (upd (bdm s) sy (Some d)) (bdeps s) (bpend s)).

(** What the AST says about a symbol: its kind, the symbol reference, the ports that refer
    back to it, its selectable width. *)
Inductive skind := SkModport | SkVariable | SkOther.
Section Symbols.
Variable sykind : nat -> skind.
Variable nm : nat -> str.
Variable backrefs : nat -> list nat.
Variable width : nat -> Z.
(** The paths behind the LSP of a reference to a modport port by a node. *)
Variable behind : nat -> nat -> list ipath.

(** addRvalue, 259-278. *)
Definition baddRvalue (s : bld) (sy : nat) (b : range) (n : option nat) : bld :=
  match sykind sy, n with
  | SkModport, Some m =>
      bemit s (flat_map (fun v => match vt_lookup (bvt s) (fst v) (snd v) with
                                  | Some vn => [DDep vn m (Some (nm sy)) b EKNone]
                                  | None => []
                                  end) (resolveInterfaceRef (behind sy m)))
  | _, _ => bqueue s [Pend sy (nm sy) b n EKNone]
  end.

(** The search at 301-308; the bounds of a port node are those it is registered with. *)
Definition first_containing (vt : vtracker) (p : nat) (b : range) : option nat :=
  match vt p with
  | None => None
  | Some m => option_map ival (find (fun x => contains (Range (ilo x) (ihi x)) b) m)
  end.
(** hookupOutputPort, 280-321. *)
Definition hookupOutputPort (vt : vtracker) (sy : nat) (b : range) (dl : dlist) : list dep :=
  match backrefs sy with
  | [p] =>
      match (match vt_lookup vt p b with Some n => Some n | None => first_containing vt p b end) with
      | Some pn => map (fun d => DDep d pn (Some (nm sy)) b EKNone) dl
      | None => []
      end
  | _ => []
  end.

(** 372-384: the clocks of a register. *)
Definition clocks (sens : list (nat * edgekind)) (n : nat) : list pend :=
  flat_map (fun e => if width (fst e) =? 0 then []
                     else [Pend (fst e) (nm (fst e)) (Range 0 (width (fst e) - 1)) (Some n) (snd e)])%Z sens.

(** 391-419: interface variables. *)
Definition interfaceEdges (vt : vtracker) (sy : nat) (b : range) (dl : dlist) : list dep :=
  flat_map (fun d =>
    match sykind sy with
    | SkModport =>
        flat_map (fun v => match vt_lookup vt (fst v) (snd v) with
                           | Some vn => [DDep d vn (Some (nm sy)) (snd v) EKNone]
                           | None => []
                           end) (resolveInterfaceRef (behind sy d))
    | SkVariable =>
        match vt_lookup vt sy b with
        | Some vn => [DDep d vn (Some (nm sy)) b EKNone]
        | None => []
        end
    | SkOther => []
    end) dl.

(** One interval of one symbol, 345-419. *)
Definition mergeInterval (sens : list (nat * edgekind)) (s : bld) (sy : nat) (d : dmap) (it : iv nat) : dres bld :=
  do dl <- getDriverList d (ival it);
  let b := Range (ilo it) (ihi it) in
  do s1 <- match sens with
           | [] =>
               do s1 <- baddDrivers s sy b dl true;
               DOk (bemit s1 (hookupOutputPort (bvt s1) sy b dl))
           | _ =>
               let '(s1, n) := createState s sy b in
               let s2 := bemit s1 (map (fun k => DDep k n (Some (nm sy)) b EKNone) dl) in
               let s3 := bqueue s2 (clocks sens n) in
               DOk (bemit s3 (hookupOutputPort (bvt s3) sy b [n]))
           end;
  DOk (bemit s1 (interfaceEdges (bvt s1) sy b dl)).
Fixpoint mergeIntervals (sens : list (nat * edgekind)) (s : bld) (sy : nat) (d : dmap) (its : list (iv nat)) : dres bld :=
  match its with
  | [] => DOk s
  | it :: r => do s1 <- mergeInterval sens s sy d it; mergeIntervals sens s1 sy d r
  end.

(** mergeDrivers, 323-423.  [blk]: the symbols of the block with their driver maps, in
    the order of valueTracker.visitAll (external: the order of a concurrent map). *)
Fixpoint mergeDrivers (sens : list (nat * edgekind)) (s : bld) (blk : list (nat * dmap)) : dres bld :=
  match blk with
  | [] => DOk s
  | (sy, d) :: r => do s1 <- mergeIntervals sens s sy d (ivs d); mergeDrivers sens s1 r
  end.
End Symbols.
