(** Model of source/BitSlice.hpp, source/BitSliceList.{hpp,cpp}, the bit-aligned
    assignment of source/DataFlowAnalysis.cpp (249-349, 465-497) and
    NodeFactory::createConstantForSegment (source/NodeFactory.cpp 34-54).

    slang expressions are external.  [expr] keeps what buildInto looks at: the kind, the
    selectable width ([ew]), the ValuePath of an LSP, the result of constant folding and
    the signedness of a conversion.  The functions stored in [EDyn], [ECond] and [EOther]
    are not looked at by the model; they give these nodes a value in [S_Slice.v].
    Positions are [nat]; uint64 wrap-around and the int32 casts at 476-478 are not
    modelled.  [V] is the type of one bit of a value (two or four states). *)
From Verif Require Import Base.

(** slang::ast::ValuePath (external): root symbol and the bounds, inside it, of the
    longest static prefix. *)
Record path := Path { proot : option nat; plo : nat; phi : nat }.

Section Slice.
Variable V : Type.

Inductive expr :=
| ELsp (p : path) (w : nat)
    (* named value, constant select or member: the value is the LSP itself *)
| EDyn (p : path) (w : nat) (ops : list expr) (f : list V -> list (list V) -> list V)
    (* the same expression kinds when the value is not the LSP itself: a select with a
       variable index ([p] is the static prefix), or a select or member of something that
       is not a variable ([proot] is [None]); [ops] are the index or base operands *)
| EConcat (w : nat) (es : list expr)                     (* MSB first *)
| ERepl (w : nat) (count : option Z) (e : expr)
    (* [None]: the count is not an integer constant, or overflows int64 *)
| EConv (w : nat) (prop si so : bool) (fold : option (list V)) (e : expr)
    (* [prop]: conversion kind Propagated; [si], [so]: inner and outer type signed;
       [fold]: integer value when the type is integral and eval succeeds *)
| ECond (w : nat) (simple : bool) (c l r : expr) (mux : list V -> V -> V -> V)
    (* [simple]: one condition, no pattern *)
| EOther (w : nat) (fold : option (list V)) (ops : list expr) (f : list (list V) -> list V).

(** exprWidth, BitSliceList.cpp 28-30. *)
Definition ew (e : expr) : nat :=
  match e with
  | ELsp _ w => w | EDyn _ w _ _ => w | EConcat w _ => w | ERepl w _ _ => w
  | EConv w _ _ _ _ _ => w | ECond w _ _ _ _ _ => w | EOther w _ _ _ => w
  end.

(** BitSliceSource, BitSlice.hpp 22-111. *)
Inductive source :=
| SLsp (p : path) (lo hi : nat)
| SPad (sign : bool)
| SOpq (e : expr)
| SPort (n : nat) (lo hi : nat)
| SConst (v : list V) (lo hi : nat) (e : option expr).

Record slice := Slice { clo : nat; chi : nat; srcs : list source }.

(** The cut hints of a symbol (CutRegistry::cutsFor; see [M_Interval.v]). *)
Definition hints := nat -> option (list nat).
Definition no_hints : hints := fun _ => None.

(** BitSliceList::width, 243-245. *)
Definition width (out : list slice) : nat :=
  match rev out with [] => 0 | s :: _ => chi s end.

(** pushOpaque, 247-256. *)
Definition pushOpaque (out : list slice) (e : expr) : list slice :=
  if ew e =? 0 then out
  else let lo := width out in out ++ [Slice lo (lo + ew e) [SOpq e]].

(** std::upper_bound and std::lower_bound on a sorted vector, as suffix and prefix. *)
Fixpoint upper_from (x : nat) (l : list nat) : list nat :=
  match l with [] => [] | c :: r => if c <=? x then upper_from x r else l end.
Fixpoint lower_until (x : nat) (l : list nat) : list nat :=
  match l with [] => [] | c :: r => if c <? x then c :: lower_until x r else [] end.

(** The emit loop of pushLsp, 275-291; [prev] and the cuts are root-symbol bits. *)
Fixpoint emit (lo : nat) (p : path) (prev : nat) (cs : list nat) : list slice :=
  let lspLo := plo p in
  let lspHi := phi p + 1 in
  let one a b := Slice (lo + (a - lspLo)) (lo + (b - lspLo))
                       [SLsp p lo (lo + (lspHi - lspLo))] in
  match cs with
  | [] => [one prev lspHi]
  | c :: r => one prev c :: emit lo p c r
  end.

(** pushLsp, 258-301. *)
Definition pushLsp (h : hints) (out : list slice) (p : path) (w : nat) : list slice :=
  if w =? 0 then out else
  let lo := width out in
  let whole := out ++ [Slice lo (lo + w) [SLsp p lo (lo + w)]] in
  match proot p with
  | None => whole
  | Some s =>
      match h s with
      | None => whole
      | Some hs =>
          match lower_until (phi p + 1) (upper_from (plo p) hs) with
          | [] => whole
          | cs => out ++ emit lo p (plo p) cs
          end
      end
  end.

(** pushConstant, 307-317. *)
Definition pushConstant (out : list slice) (v : list V) (e : expr) : list slice :=
  if ew e =? 0 then out
  else let lo := width out in out ++ [Slice lo (lo + ew e) [SConst v lo (lo + ew e) (Some e)]].

(** collectCuts, 32-40; mergeCuts, 42-48 (insertion sort stands for std::sort). *)
Definition collectCuts (l : list slice) : list nat := 0 :: map chi l.
Fixpoint insert (x : nat) (l : list nat) : list nat :=
  match l with [] => [x] | y :: r => if x <=? y then x :: l else y :: insert x r end.
Definition sort (l : list nat) : list nat := fold_right insert [] l.
Fixpoint uniq (l : list nat) : list nat :=
  match l with
  | [] => []
  | x :: r => match r with
              | [] => [x]
              | y :: _ => if x =? y then uniq r else x :: uniq r
              end
  end.
Definition mergeCuts (a b : list nat) : list nat := uniq (sort (a ++ b)).

(** findSliceContaining, 51-59, and the sources of the slice found. *)
Definition findSlice (l : list slice) (bit : nat) : option slice :=
  find (fun s => (clo s <=? bit) && (bit <? chi s)) l.
Definition srcs_at (l : list slice) (bit : nat) : list source :=
  match findSlice l bit with Some s => srcs s | None => [] end.

(** The translate lambda, 195-203. *)
Definition translate (base : nat) (s : source) : source :=
  match s with
  | SLsp p lo hi => SLsp p (lo + base) (hi + base)
  | SPort n lo hi => SPort n (lo + base) (hi + base)
  | SConst v lo hi e => SConst v (lo + base) (hi + base) e
  | _ => s
  end.

(** Consecutive pairs of a cut list (the loops at 204 and 342). *)
Fixpoint pairs (l : list nat) : list (nat * nat) :=
  match l with
  | a :: r => match r with b :: _ => (a, b) :: pairs r | [] => [] end
  | [] => []
  end.

(** The loop at 204-219. *)
Definition unify (base : nat) (l r : list slice) (c : expr) : list slice :=
  map (fun ab => Slice (base + fst ab) (base + snd ab)
                   (map (translate base) (srcs_at l (fst ab)) ++
                    map (translate base) (srcs_at r (fst ab)) ++ [SOpq c]))
      (pairs (mergeCuts (collectCuts l) (collectCuts r))).

(** A constant of the right width (the tests at 120-124 and 228-232). *)
Definition folded (fold : option (list V)) (w : nat) : option (list V) :=
  match fold with Some v => if length v =? w then Some v else None | None => None end.

Variable vzero : V.   (* the bit 0 *)

(** buildInto, 61-239. *)
Fixpoint build (h : hints) (e : expr) (out : list slice) : list slice :=
  match e with
  | ELsp p w => pushLsp h out p w
  | EDyn p w _ _ => pushLsp h out p w
  | EConcat _ es => fold_right (build h) out es          (* last operand first *)
  | ERepl _ None _ => pushOpaque out e
  | ERepl _ (Some n) x => Nat.iter (Z.to_nat n) (build h x) out
  | EConv w prop si so fold x =>
      match folded fold w with
      | Some v => pushConstant out v e
      | None =>
          if w =? ew x then build h x out
          else if ew x <? w then
            let out1 := build h x out in
            let lo := width out1 in
            let pad := w - ew x in
            out1 ++ [Slice lo (lo + pad)
                       [if si && so then SPad true
                        else SConst (repeat vzero pad) lo (lo + pad) None]]
          else pushOpaque out e
      end
  | ECond w simple c l r _ =>
      if negb (ew l =? ew r) || negb (ew l =? w) then pushOpaque out e
      else if negb simple then pushOpaque out e
      else
        let sl := build h l [] in
        let sr := build h r [] in
        if negb (width sl =? width sr) then pushOpaque out e
        else out ++ unify (width out) sl sr c
  | EOther w fold _ _ =>
      match folded fold w with
      | Some v => pushConstant out v e
      | None => pushOpaque out e
      end
  end.

(** BitSliceList::build, 319-329. *)
Definition build_list (h : hints) (enabled : bool) (e : expr) : list slice :=
  if enabled then build h e [] else pushOpaque [] e.

(** Segment, BitSliceList.hpp 77-84; alignSegments, 331-355. *)
Record segment := Seg { slo : nat; shi : nat; lsrcs : list source; rsrcs : list source }.
Definition alignSegments (l r : list slice) : list segment :=
  map (fun ab => Seg (fst ab) (snd ab) (srcs_at l (fst ab)) (srcs_at r (fst ab)))
      (pairs (mergeCuts (collectCuts l) (collectCuts r))).

(** The bounds noted by driveLhsLspSegment and driveRhsLspSegment, DataFlowAnalysis.cpp
    465-497: symbol, first and last bit.  [None]: a null root symbol is dereferenced
    (471, 487), or the assertion at 468 and 484 fails. *)
Definition lsp_note (p : path) (srcLo : nat) (g : segment) : option (nat * nat * nat) :=
  match proot p with
  | None => None
  | Some s =>
      if slo g <? srcLo then None
      else let off := slo g - srcLo in
           Some (s, plo p + off, plo p + off + (shi g - slo g) - 1)
  end.

(** createConstantForSegment, NodeFactory.cpp 34-54: the value of the node.  SVInt::slice
    (external) takes the bits [offset .. offset + width - 1]. *)
Definition const_slice (v : list V) (srcLo : nat) (g : segment) : list V :=
  let off := slo g - srcLo in
  let w := shi g - slo g in
  if length v =? w then v else firstn w (skipn off v).

(** What one segment's Assignment node is given, DataFlowAnalysis.cpp 283-343: L-value
    notes, R-value notes, visited opaque expressions and constants. *)
Record segnode := SegNode {
  ln : list (nat * nat * nat);
  rn : list (nat * nat * nat);
  ropq : list expr;
  rconst : list (list V)
}.

Fixpoint lhs_notes (g : segment) (ss : list source) : option (list (nat * nat * nat)) :=
  match ss with
  | [] => Some []
  | SLsp p lo _ :: r =>
      match lsp_note p lo g, lhs_notes g r with
      | Some n, Some ns => Some (n :: ns)
      | _, _ => None
      end
  | _ :: r => lhs_notes g r
  end.

(** [None] also for a PortNode on the right (SLANG_UNREACHABLE at 340). *)
Fixpoint rhs_notes (g : segment) (ss : list source) (acc : segnode) : option segnode :=
  match ss with
  | [] => Some acc
  | SLsp p lo _ :: r =>
      match lsp_note p lo g with
      | Some n => rhs_notes g r (SegNode (ln acc) (rn acc ++ [n]) (ropq acc) (rconst acc))
      | None => None
      end
  | SOpq e :: r => rhs_notes g r (SegNode (ln acc) (rn acc) (ropq acc ++ [e]) (rconst acc))
  | SPad _ :: r => rhs_notes g r acc
  | SConst v lo _ _ :: r =>
      rhs_notes g r (SegNode (ln acc) (rn acc) (ropq acc) (rconst acc ++ [const_slice v lo g]))
  | SPort _ _ _ :: _ => None
  end.

Definition seg_node (prohibit lvarg : bool) (g : segment) : option segnode :=
  match (if prohibit then Some [] else lhs_notes g (lsrcs g)) with
  | None => None
  | Some l => if lvarg then Some (SegNode l [] [] [])
              else rhs_notes g (rsrcs g) (SegNode l [] [] [])
  end.

Inductive aresult :=
| ALegacy                        (* handleAssignmentLegacy *)
| ANodes (l : list segnode)
| ACrash.                        (* null dereference or unreachable code *)

Fixpoint seg_nodes (prohibit lvarg : bool) (gs : list segment) : option (list segnode) :=
  match gs with
  | [] => Some []
  | g :: r => match seg_node prohibit lvarg g, seg_nodes prohibit lvarg r with
              | Some n, Some ns => Some (n :: ns)
              | _, _ => None
              end
  end.

(** handle(AssignmentExpression), 249-349, with resolveAssignBits set and both types
    integral: which nodes are created, with which notes. *)
Definition assign (h : hints) (prohibit lvarg : bool) (lhs rhs : expr) : aresult :=
  let l := build h lhs [] in
  let r := build h rhs [] in
  if negb (width l =? width r) then ALegacy
  else match seg_nodes prohibit lvarg (alignSegments l r) with
       | Some ns => ANodes ns
       | None => ACrash
       end.

End Slice.

Arguments ELsp {V} _ _.
Arguments EDyn {V} _ _ _ _.
Arguments EConcat {V} _ _.
Arguments ERepl {V} _ _ _.
Arguments EConv {V} _ _ _ _ _ _.
Arguments ECond {V} _ _ _ _ _ _.
Arguments EOther {V} _ _ _ _.
Arguments ew {V} _.
Arguments SLsp {V} _ _ _.
Arguments SPad {V} _.
Arguments SOpq {V} _.
Arguments SPort {V} _ _ _.
Arguments SConst {V} _ _ _ _.
Arguments Slice {V} _ _ _.
Arguments clo {V} _.
Arguments chi {V} _.
Arguments srcs {V} _.
Arguments width {V} _.
Arguments pushOpaque {V} _ _.
Arguments emit {V} _ _ _ _.
Arguments pushLsp {V} _ _ _ _.
Arguments pushConstant {V} _ _ _.
Arguments collectCuts {V} _.
Arguments findSlice {V} _ _.
Arguments srcs_at {V} _ _.
Arguments translate {V} _ _.
Arguments unify {V} _ _ _ _.
Arguments folded {V} _ _.
Arguments build {V} _ _ _ _.
Arguments build_list {V} _ _ _ _.
Arguments Seg {V} _ _ _ _.
Arguments slo {V} _.
Arguments shi {V} _.
Arguments lsrcs {V} _.
Arguments rsrcs {V} _.
Arguments alignSegments {V} _ _.
Arguments lsp_note {V} _ _ _.
Arguments const_slice {V} _ _ _.
Arguments SegNode {V} _ _ _ _.
Arguments ln {V} _.
Arguments rn {V} _.
Arguments ropq {V} _.
Arguments rconst {V} _.
Arguments lhs_notes {V} _ _.
Arguments rhs_notes {V} _ _ _.
Arguments seg_node {V} _ _ _.
Arguments seg_nodes {V} _ _ _.
Arguments assign {V} _ _ _ _ _ _.
Arguments ALegacy {V}.
Arguments ANodes {V} _.
Arguments ACrash {V}.
