(** Model of the left-hand side of assignments with selects that have a variable index, and
    of force statements: source/DataFlowAnalysis.hpp 136-182 and
    source/DataFlowAnalysis.cpp 214-349 with prohibitLValue and isLValueArg.  The paths for
    plain assignments are in [M_DFA.v] and [M_Flow.v]; [P_Lhs.v] shows that both models
    agree there.

    Simplified: the index of a select has no conditional or short-circuit operators
    ([M_Expr.v] has these), both types are integral. *)
From Verif Require Import Base M_Graph M_Range M_Netlist M_Annot M_Interval M_Heap M_Drivers M_Pending M_DFA M_Slice M_Port M_Flow.

Section Lhs.
Context {V : Type}.
Variable vzero : V.
Variable nm : nat -> str.
Variable automatic : nat -> bool.
Variable external : option nat.

(** The value paths visited for [e], with [true] where isLValue is left as it is and
    [false] where the handler of selects has cleared it (DataFlowAnalysis.hpp 152-163): the
    selector first, then the path itself (181). *)
Fixpoint lhs_paths (e : expr V) : list (bool * path) :=
  match e with
  | EDyn p _ ops _ => map (pair false) (flat_map epaths ops) ++ [(true, p)]
  | EConcat _ es => flat_map lhs_paths es
  | _ => map (pair true) (epaths e)
  end.
(** noteReference, DataFlowAnalysis.cpp 154-194, for one of these; without a root symbol
    nothing is noted. *)
Definition note_lhs (lv : option bool) (s : st) (x : bool * path) : dres st :=
  match proot (snd x) with
  | None => DOk s
  | Some sy => noteReference nm automatic external (if fst x then lv else None) s
                 (sy, zrange (plo (snd x)) (phi (snd x)))
  end.
(** handleAssignmentLegacy, 226-247.  With prohibitLValue set the left-hand side is visited
    with isLValue false (241). *)
Definition assign_legacy (prohibit lvarg : bool) (s : st) (l : nat) (blocking : bool) (lhs rhs : expr V)
    : dres st :=
  let '(s1, n) := create s (KAssign l) in
  do s2 <- each (note_lhs (if prohibit then None else Some blocking)) (updateNode s1 n false) (lhs_paths lhs);
  if lvarg then DOk s2 else each (noteReference nm automatic external None) s2 (refs rhs).

(** One iteration of the loop at 287-343: 300-309 are skipped when prohibitLValue is set,
    312-342 for an lvalue argument. *)
Definition segment_seg_f (prohibit lvarg : bool) (g : segment V) : option seg :=
  match (if prohibit then Some [] else lhs_notes g (lsrcs g)),
        (if lvarg then Some [] else rhs_sources g (rsrcs g)) with
  | Some l, Some r => Some (M_DFA.Seg (map note_ref l) r)
  | _, _ => None
  end.
Fixpoint segment_segs_f (prohibit lvarg : bool) (gs : list (segment V)) : option (list seg) :=
  match gs with
  | [] => Some []
  | g :: r => match segment_seg_f prohibit lvarg g, segment_segs_f prohibit lvarg r with
              | Some x, Some l => Some (x :: l)
              | _, _ => None
              end
  end.

(** handle(AssignmentExpression), 249-349.  A null root symbol (471, 487) is EAssert. *)
Definition handle_assign (resolveBits : bool) (h : hints) (prohibit lvarg : bool) (s : st) (l : nat)
    (blocking : bool) (lhs rhs : expr V) : dres st :=
  if negb resolveBits then assign_legacy prohibit lvarg s l blocking lhs rhs
  else
    let a := build vzero h lhs [] in
    let b := build vzero h rhs [] in
    if negb (M_Slice.width a =? M_Slice.width b) then assign_legacy prohibit lvarg s l blocking lhs rhs
    else match segment_segs_f prohibit lvarg (alignSegments a b) with
         | Some gs => do_aligned nm automatic external s l blocking gs
         | None => DErr EAssert
         end.
(** handle(ProceduralAssignStatement), 214-224; its assignment is blocking and not an
    lvalue argument. *)
Definition handle_proc_assign (resolveBits : bool) (h : hints) (isForce : bool) (s : st) (l : nat)
    (lhs rhs : expr V) : dres st :=
  handle_assign resolveBits h isForce false s l true lhs rhs.

End Lhs.
