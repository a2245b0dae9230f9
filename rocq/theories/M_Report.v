(** Model of path reporting in tools/driver/driver.cpp (41-207), on the graph of M_Serial.v.
    Diagnostics (external) are the list of what is issued. *)
From Coq Require Import Ascii String.
From Verif Require Import Base M_Graph M_Range M_Netlist M_Text M_Serial M_Dot.

Section Report.
Variable cval : Type.
Notation ndata := (ndata cval).
Notation nlg := (nlg cval).

(** NetlistNode.hpp 37-61 and the overrides: kind, path and bounds of a node. *)
Definition data_kind (d : ndata) : kind :=
  match d with
  | DPort _ _ _ _ _ => KPort | DVariable _ _ _ _ => KVariable | DState _ _ _ _ => KState
  | DAssignment _ => KAssignment | DConditional _ => KConditional | DCase _ => KCase
  | DConstant _ _ _ => KConstant | DMerge => KMerge | DNone => KNone
  end.
Definition data_path (d : ndata) : option str :=
  match d with
  | DPort _ p _ _ _ | DVariable _ p _ _ | DState _ p _ _ => Some p
  | _ => None
  end.
Definition data_bounds (d : ndata) : option range :=
  match d with
  | DPort _ _ _ _ b | DVariable _ _ _ b | DState _ _ _ b => Some b
  | _ => None
  end.
(** The graph as the queries of M_Path.v, M_Cycle.v and M_Query.v see it. *)
Definition nl_of (g : nlg) : netlist :=
  Netlist (lg g)
    (fun n => NInfo (Z.to_nat (lid g n)) (data_kind (lnode g n)) (data_path (lnode g n)) (data_bounds (lnode g n)))
    (fun e => let d := ledge g e in
              EAttr (dkind d) (match dsym d with
                               | Some i => option_map sypath (nth_error (lsyms g) i)
                               | None => None
                               end) (dbounds d) (ddis d)).

(** Outcomes: [RUnreach] SLANG_UNREACHABLE, [RThrow] an exception (std::deque::at),
    [RAssert] a failed SLANG_ASSERT, [ROob] path[0] of an empty path. *)
Inductive rres (A : Type) := ROk (a : A) | RUnreach | RThrow | RAssert | ROob.
Arguments ROk {A} a. Arguments RUnreach {A}. Arguments RThrow {A}. Arguments RAssert {A}. Arguments ROob {A}.
Definition rbind {A B} (x : rres A) (f : A -> rres B) : rres B :=
  match x with
  | ROk a => f a | RUnreach => RUnreach | RThrow => RThrow | RAssert => RAssert | ROob => ROob
  end.

(** TextLocation::toString, TextLocation.hpp 88-94, with FileTable::getFilename 51-57. *)
Definition no_file : Z := 4294967295.
Definition loc_text (files : list str) (l : loc) : rres str :=
  if (lfile l =? no_file)%Z then ROk (lit "?")
  else match nth_error files (Z.to_nat (lfile l)) with
       | Some f => ROk (f ++ lit ":" ++ print_int (lline l) ++ lit ":" ++ print_int (lcol l))
       | None => RThrow
       end.
Definition note (files : list str) (l : loc) (what : str) : rres str :=
  rbind (loc_text files l) (fun t => ROk (t ++ lit ": note: " ++ what ++ [c_nl])).

(** getNodeLocation, 43-57. *)
Definition getNodeLocation (d : ndata) : option loc :=
  match d with
  | DPort _ _ l _ _ | DAssignment l | DConditional l | DCase l => Some l
  | _ => None
  end.

(** reportNodeText, 112-150. *)
Definition reportNodeText (files : list str) (d : ndata) : rres str :=
  match d with
  | DPort name _ l dir _ =>
      match dir with
      | DIn => note files l (lit "input port " ++ name)
      | DOut => note files l (lit "output port " ++ name)
      | _ => rbind (loc_text files l) (fun _ => RUnreach)
      end
  | DAssignment l => note files l (lit "assignment")
  | DConditional l => note files l (lit "conditional statement")
  | DCase l => note files l (lit "case statement")
  | _ => ROk []
  end.
(** reportEdgeText, 152-159. *)
Definition reportEdgeText (g : nlg) (e : edge) : rres str :=
  match edge_symbol cval g e with
  | Some s => match syname s with
              | [] => ROk []
              | _ => note (lfiles g) (syloc s)
                       (lit "value " ++ sypath s ++ range_toString (dbounds (ledge g (eid e))))
              end
  | None => ROk []
  end.

(** What is issued with diagnostics: reportNodeDiag 59-101, reportEdgeDiag 103-110. *)
Inductive diag := GIn (name : str) | GOut (name : str) | GAssign | GCond | GCase | GValue (what : str).
Definition reportNodeDiag (d : ndata) : rres (list diag) :=
  match d with
  | DPort name _ _ dir _ =>
      match dir with DIn => ROk [GIn name] | DOut => ROk [GOut name] | _ => RUnreach end
  | DAssignment _ => ROk [GAssign]
  | DConditional _ => ROk [GCond]
  | DCase _ => ROk [GCase]
  | _ => ROk []
  end.
Definition reportEdgeDiag (g : nlg) (e : edge) : rres (list diag) :=
  match edge_symbol cval g e with
  | Some s => match syname s with
              | [] => ROk []
              | _ => ROk [GValue (sypath s ++ range_toString (dbounds (ledge g (eid e))))]
              end
  | None => ROk []
  end.

(** The loop of reportPath (181-189 and 196-204, the same but for the reporters), then the
    last node. *)
Section Walk.
Context {A : Type}.
Variable node : ndata -> rres (list A).
Variable edge_ : edge -> rres (list A).
Fixpoint report_walk (g : nlg) (a : nat) (r : list nat) : rres (list A) :=
  match r with
  | [] => node (lnode g a)
  | b :: r' =>
      match findEdgeTo (nst (lg g) a) b with
      | None => RAssert
      | Some e =>
          rbind (node (lnode g a)) (fun x =>
          rbind (edge_ e) (fun y =>
          rbind (report_walk g b r') (fun z => ROk (x ++ y ++ z))))
      end
  end.
Definition report_loop (g : nlg) (p : list nat) : rres (list A) :=
  match p with [] => ROob | a :: r => report_walk g a r end.
End Walk.

(** useDiag, 168-178; [live n]: the location of node [n] has a source location. *)
Fixpoint use_diag (g : nlg) (live : nat -> bool) (p : list nat) : bool :=
  match p with
  | [] => false
  | n :: r => match getNodeLocation (lnode g n) with Some _ => live n | None => use_diag g live r end
  end.
(** reportPath, 164-207; [diags]: the diagnostics object exists (the netlist was built, not
    loaded). *)
Inductive report := RepText (t : str) | RepDiag (l : list diag).
Definition reportPath (g : nlg) (diags : bool) (live : nat -> bool) (p : list nat) : rres report :=
  if diags && use_diag g live p
  then rbind (report_loop reportNodeDiag (reportEdgeDiag g) g p) (fun l => ROk (RepDiag l))
  else rbind (report_loop (reportNodeText (lfiles g)) (reportEdgeText g) g p) (fun t => ROk (RepText t)).
End Report.
Arguments ROk {A} a. Arguments RUnreach {A}. Arguments RThrow {A}. Arguments RAssert {A}. Arguments ROob {A}.
