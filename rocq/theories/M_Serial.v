(** Model of source/NetlistSerializer.cpp (include/netlist/NetlistSerializer.hpp).

    nlohmann::json is external and modelled as the document tree; reading and writing the
    text is not modelled (json::parse throws on bad text).  The transient
    TextLocation::sourceLocation is not serialised and left out. *)
From Coq Require Import Ascii String.
From Verif Require Import Base M_Range M_Graph M_Netlist M_Intern S_Intern.

(** [JFlt z]: a number written with a fraction or exponent, or too large for 64 bits,
    whose integer part is [z].  [JNum z]: -2^63 <= z < 2^64. *)
Inductive json :=
| JNull | JBool (b : bool) | JNum (z : Z) | JFlt (z : Z) | JStr (s : str)
| JArr (l : list json) | JObj (l : list (str * json)).

(** Result of a step: value, C++ exception, undefined behaviour. *)
Inductive out (A : Type) := Ok (a : A) | Throw | Undef.
Arguments Ok {A} _. Arguments Throw {A}. Arguments Undef {A}.
Definition bind {A B} (x : out A) (f : A -> out B) : out B :=
  match x with Ok a => f a | Throw => Throw | Undef => Undef end.
Notation "x <- e ;; f" := (bind e (fun x => f)) (at level 61, e at next level, right associativity).

(** json::at(key), contains(key), iteration, operator[](index) on a mutable copy and
    get<T>() (external, by contract). *)
Fixpoint assoc (l : list (str * json)) (k : str) : option json :=
  match l with [] => None | (k', v) :: r => if str_eqb k' k then Some v else assoc r k end.
Definition field (j : json) (k : string) : out json :=
  match j with
  | JObj l => match assoc l (lit k) with Some v => Ok v | None => Throw end
  | _ => Throw
  end.
Definition has (j : json) (k : string) : bool :=
  match j with
  | JObj l => match assoc l (lit k) with Some _ => true | None => false end
  | _ => false
  end.
Definition elems (j : json) : list json :=
  match j with JArr l => l | JObj l => map snd l | JNull => [] | x => [x] end.
Definition elt (j : json) (i : nat) : out json :=
  match j with JArr l => Ok (nth i l JNull) | JNull => Ok JNull | _ => Throw end.

(** static_cast to an integer type with range [lo, lo + 2^n): integers wrap; a real
    outside the range is undefined. Only types other than int64/uint64 accept booleans. *)
Definition wrap (lo m z : Z) : Z := (lo + (z - lo) mod m)%Z.
Definition getInt (bools : bool) (lo m : Z) (j : json) : out Z :=
  match j with
  | JNum z => Ok (wrap lo m z)
  | JFlt z => if (lo <=? z)%Z && (z <? lo + m)%Z then Ok z else Undef
  | JBool b => if bools then Ok (if b then 1%Z else 0%Z) else Throw
  | _ => Throw
  end.
Definition p32 : Z := 4294967296.
Definition p64 : Z := 18446744073709551616.
Definition getI32 : json -> out Z := getInt true (-2147483648) p32.   (* int, int32_t *)
Definition getU32 : json -> out Z := getInt true 0 p32.               (* uint32_t *)
Definition getU64 : json -> out Z := getInt false 0 p64.              (* size_t, uint64_t *)
Definition getStr (j : json) : out str := match j with JStr s => Ok s | _ => Throw end.
Definition getBool (j : json) : out bool := match j with JBool b => Ok b | _ => Throw end.

(** nodeKindToString 18-40, nodeKindFromString 42-68. *)
Definition nodeKindToString (k : kind) : str :=
  match k with
  | KNone => lit "None" | KPort => lit "Port" | KVariable => lit "Variable"
  | KAssignment => lit "Assignment" | KConditional => lit "Conditional" | KCase => lit "Case"
  | KMerge => lit "Merge" | KState => lit "State" | KConstant => lit "Constant"
  end.
Definition nodeKindFromString (s : str) : kind :=
  if str_eqb s (lit "Port") then KPort
  else if str_eqb s (lit "Variable") then KVariable
  else if str_eqb s (lit "Assignment") then KAssignment
  else if str_eqb s (lit "Conditional") then KConditional
  else if str_eqb s (lit "Case") then KCase
  else if str_eqb s (lit "Merge") then KMerge
  else if str_eqb s (lit "State") then KState
  else if str_eqb s (lit "Constant") then KConstant
  else KNone.

(** edgeKindToString 70-82, edgeKindFromString 84-95. *)
Definition edgeKindToString (k : edgekind) : str :=
  match k with
  | EKNone => lit "None" | EKPos => lit "PosEdge" | EKNeg => lit "NegEdge" | EKBoth => lit "BothEdges"
  end.
Definition edgeKindFromString (s : str) : edgekind :=
  if str_eqb s (lit "PosEdge") then EKPos
  else if str_eqb s (lit "NegEdge") then EKNeg
  else if str_eqb s (lit "BothEdges") then EKBoth
  else EKNone.

(** directionToString 97-109, directionFromString 111-123. *)
Definition directionToString (d : direction) : str :=
  match d with DIn => lit "In" | DOut => lit "Out" | DInOut => lit "InOut" | DRef => lit "Ref" end.
Definition directionFromString (s : str) : direction :=
  if str_eqb s (lit "Out") then DOut
  else if str_eqb s (lit "InOut") then DInOut
  else if str_eqb s (lit "Ref") then DRef
  else DIn.

(** TextLocation: fileIndex, line, column. *)
Record loc := Loc { lfile : Z; lline : Z; lcol : Z }.
(** SymbolReference. *)
Record sym := Sym { syname : str; sypath : str; syloc : loc }.

(** locationToJson 129-132, locationFromJson 134-137. *)
Definition locationToJson (l : loc) : json :=
  JObj [(lit "fileIndex", JNum (lfile l)); (lit "line", JNum (lline l)); (lit "column", JNum (lcol l))].
Definition locationFromJson (j : json) : out loc :=
  a <- field j "fileIndex" ;; f <- getU32 a ;;
  b <- field j "line" ;; n <- getU64 b ;;
  c <- field j "column" ;; k <- getU64 c ;; Ok (Loc f n k).

(** symbolToJson 139-145, symbolFromJson 147-150. *)
Definition symbolToJson (s : sym) : json :=
  JObj [(lit "name", JStr (syname s)); (lit "path", JStr (sypath s));
        (lit "location", locationToJson (syloc s))].
Definition symbolFromJson (j : json) : out sym :=
  a <- field j "name" ;; n <- getStr a ;;
  b <- field j "path" ;; p <- getStr b ;;
  c <- field j "location" ;; l <- locationFromJson c ;; Ok (Sym n p l).

Definition boundsToJson (r : range) : json := JArr [JNum (lower r); JNum (upper r)].
Definition boundsFromJson (j : json) : out range :=
  a <- elt j 0 ;; lo <- getI32 a ;; b <- elt j 1 ;; hi <- getI32 b ;; Ok (Range lo hi).

Section Serial.
(** slang::ConstantValue (external): the default-constructed value, toString, and
    SVInt::fromString ([None]: it throws). *)
Variable cval : Type.
Variable cbad : cval.
Variable ctext : cval -> str.
Variable cparse : str -> option cval.

(** The node classes of NetlistNode.hpp 72-244 with their data members. *)
Inductive ndata :=
| DPort (name path : str) (l : loc) (d : direction) (b : range)
| DVariable (name path : str) (l : loc) (b : range)
| DState (name path : str) (l : loc) (b : range)
| DAssignment (l : loc) | DConditional (l : loc) | DCase (l : loc)
| DConstant (v : cval) (w : Z) (l : loc)
| DMerge | DNone.

(** NetlistEdge.hpp 20-23; the symbol pointer is a position in the symbol table. *)
Record edata := ED { dkind : edgekind; dsym : option nat; dbounds : range; ddis : bool }.
Definition edge0 : edata := ED EKNone None (Range 0%Z 0%Z) false.

(** NetlistGraph: file table, black-box paths, container, node payload and ID by object,
    edge payload by object, symbol table. *)
Record nlg := NL {
  lfiles : list str; lbox : list str; lg : graph;
  lnode : nat -> ndata; lid : nat -> Z; ledge : nat -> edata; lsyms : list sym }.
Definition nl_empty : nlg := NL [] [] empty_graph (fun _ => DNone) (fun _ => 0%Z) (fun _ => edge0) [].

(** The switch in serialize, 186-236. *)
Definition nodeToJson (id : Z) (d : ndata) : json :=
  match d with
  | DPort name path l dir b =>
      JObj [(lit "id", JNum id); (lit "kind", JStr (nodeKindToString KPort)); (lit "path", JStr path);
            (lit "name", JStr name); (lit "bounds", boundsToJson b);
            (lit "direction", JStr (directionToString dir)); (lit "location", locationToJson l)]
  | DVariable name path l b =>
      JObj [(lit "id", JNum id); (lit "kind", JStr (nodeKindToString KVariable)); (lit "path", JStr path);
            (lit "name", JStr name); (lit "bounds", boundsToJson b); (lit "location", locationToJson l)]
  | DState name path l b =>
      JObj [(lit "id", JNum id); (lit "kind", JStr (nodeKindToString KState)); (lit "path", JStr path);
            (lit "name", JStr name); (lit "bounds", boundsToJson b); (lit "location", locationToJson l)]
  | DAssignment l =>
      JObj [(lit "id", JNum id); (lit "kind", JStr (nodeKindToString KAssignment)); (lit "location", locationToJson l)]
  | DConditional l =>
      JObj [(lit "id", JNum id); (lit "kind", JStr (nodeKindToString KConditional)); (lit "location", locationToJson l)]
  | DCase l =>
      JObj [(lit "id", JNum id); (lit "kind", JStr (nodeKindToString KCase)); (lit "location", locationToJson l)]
  | DConstant v w l =>
      JObj [(lit "id", JNum id); (lit "kind", JStr (nodeKindToString KConstant)); (lit "location", locationToJson l);
            (lit "width", JNum w); (lit "value", JStr (ctext v))]
  | DMerge => JObj [(lit "id", JNum id); (lit "kind", JStr (nodeKindToString KMerge))]
  | DNone => JObj [(lit "id", JNum id); (lit "kind", JStr (nodeKindToString KNone))]
  end.

(** 240-255. A null symbol is written as an empty object. *)
Definition edgeToJson (g : nlg) (e : edge) : json :=
  let d := ledge g (eid e) in
  JObj [(lit "source", JNum (lid g (esrc e))); (lit "target", JNum (lid g (etgt e)));
        (lit "edgeKind", JStr (edgeKindToString (dkind d)));
        (lit "symbol", match dsym d with
                       | Some i => match nth_error (lsyms g) i with
                                   | Some s => symbolToJson s
                                   | None => JObj []
                                   end
                       | None => JObj []
                       end);
        (lit "bounds", boundsToJson (dbounds d)); (lit "disabled", JBool (ddis d))].

(** serialize, 156-259. *)
Definition serialize (g : nlg) : json :=
  JObj [(lit "version", JNum 3);
        (lit "fileTable", JArr (map JStr (lfiles g)));
        (lit "blackBoxes", JArr (map JStr (lbox g)));
        (lit "nodes", JArr (map (fun n => nodeToJson (lid g n) (lnode g n)) (gnodes (lg g))));
        (lit "edges", JArr (flat_map (fun n => map (edgeToJson g) (outs (nst (lg g) n))) (gnodes (lg g))))].

(** The node part of deserialize, 292-370.  The order in which the constructor arguments
    are evaluated is unspecified; it only decides between an exception and undefined
    behaviour when an input has both. *)
Definition constFromJson (s : str) : cval :=
  match s with
  | [] => cbad
  | _ => match cparse s with Some v => v | None => cbad end
  end.
Definition nodeFromJson (j : json) : out (Z * ndata) :=
  i <- field j "id" ;; id <- getU64 i ;;
  k <- field j "kind" ;; ks <- getStr k ;;
  d <- match nodeKindFromString ks with
       | KPort =>
           bj <- field j "bounds" ;; nj <- field j "name" ;; name <- getStr nj ;;
           pj <- field j "path" ;; path <- getStr pj ;;
           lj <- field j "location" ;; l <- locationFromJson lj ;;
           dj <- field j "direction" ;; d <- getStr dj ;;
           b <- boundsFromJson bj ;; Ok (DPort name path l (directionFromString d) b)
       | KVariable =>
           bj <- field j "bounds" ;; nj <- field j "name" ;; name <- getStr nj ;;
           pj <- field j "path" ;; path <- getStr pj ;;
           lj <- field j "location" ;; l <- locationFromJson lj ;;
           b <- boundsFromJson bj ;; Ok (DVariable name path l b)
       | KState =>
           bj <- field j "bounds" ;; nj <- field j "name" ;; name <- getStr nj ;;
           pj <- field j "path" ;; path <- getStr pj ;;
           lj <- field j "location" ;; l <- locationFromJson lj ;;
           b <- boundsFromJson bj ;; Ok (DState name path l b)
       | KAssignment => lj <- field j "location" ;; l <- locationFromJson lj ;; Ok (DAssignment l)
       | KConditional => lj <- field j "location" ;; l <- locationFromJson lj ;; Ok (DConditional l)
       | KCase => lj <- field j "location" ;; l <- locationFromJson lj ;; Ok (DCase l)
       | KConstant =>
           wj <- field j "width" ;; w <- getU64 wj ;;
           vj <- field j "value" ;; v <- getStr vj ;;
           lj <- field j "location" ;; l <- locationFromJson lj ;; Ok (DConstant (constFromJson v) w l)
       | KMerge => Ok DMerge
       | KNone => Ok DNone
       end ;;
  Ok (id, d).

(** DirectedGraph::addNode(unique_ptr), DirectedGraph.hpp 406-410; the node took its ID
    from NetlistNode::nextID, NetlistNode.hpp 40-41. *)
Definition addNodeData (g : nlg) (d : ndata) (id : Z) : nlg * nat :=
  let (g', n) := addNode (lg g) in
  (NL (lfiles g) (lbox g) g' (upd (lnode g) n d) (upd (lid g) n id) (ledge g) (lsyms g), n).

(** Loops stop at the first exception; what was done stays done. *)
Fixpoint each {S} (f : S -> json -> S * out unit) (l : list json) (s : S) : S * out unit :=
  match l with
  | [] => (s, Ok tt)
  | j :: r => match f s j with
              | (s', Ok _) => each f r s'
              | (s', x) => (s', x)
              end
  end.

(** std::unordered_map idMap: latest binding first. *)
Definition idmap := list (Z * nat).
Fixpoint id_find (m : idmap) (k : Z) : option nat :=
  match m with [] => None | (k', n) :: r => if Z.eqb k' k then Some n else id_find r k end.

(** [next]: NetlistNode::nextID. *)
Definition nstep (s : nlg * idmap * Z) (j : json) : (nlg * idmap * Z) * out unit :=
  let '(g, m, next) := s in
  match nodeFromJson j with
  | Ok (id, d) => let (g', n) := addNodeData g d next in ((g', (id, n) :: m, (next + 1)%Z), Ok tt)
  | Throw => (s, Throw)
  | Undef => (s, Undef)
  end.

Definition set_edge (g : nlg) (e : nat) (d : edata) : nlg :=
  NL (lfiles g) (lbox g) (lg g) (lnode g) (lid g) (upd (ledge g) e d) (lsyms g).

(** The edge part, 373-402: the edge is added first, then its members are set one by
    one.  NetlistGraph::addEdge, NetlistGraph.hpp 171-174, is Node::addEdge. *)
Definition estep (m : idmap) (g : nlg) (j : json) : nlg * out unit :=
  match (a <- field j "source" ;; s <- getU64 a ;; b <- field j "target" ;; t <- getU64 b ;; Ok (s, t)) with
  | Throw => (g, Throw)
  | Undef => (g, Undef)
  | Ok (s, t) =>
    match id_find m s, id_find m t with
    | Some a, Some b =>
        let known := match lookupOutEdge (nst (lg g) a) b with Some _ => true | None => false end in
        let (gr, e) := node_addEdge outEdgeIndexThreshold (lg g) a b in
        let d0 := if known then ledge g (eid e) else edge0 in
        let g1 := NL (lfiles g) (lbox g) gr (lnode g) (lid g) (upd (ledge g) (eid e) d0) (lsyms g) in
        match (k <- field j "edgeKind" ;; getStr k) with
        | Throw => (g1, Throw) | Undef => (g1, Undef)
        | Ok ks =>
          let d1 := ED (edgeKindFromString ks) (dsym d0) (dbounds d0) (ddis d0) in
          let g2 := set_edge g1 (eid e) d1 in
          match field j "symbol" with
          | Throw => (g2, Throw) | Undef => (g2, Undef)
          | Ok sj =>
            match (if has sj "name" then s <- symbolFromJson sj ;; Ok (Some s) else Ok None) with
            | Throw => (g2, Throw) | Undef => (g2, Undef)
            | Ok os =>
              let (tab, p) := match os with
                              | Some s => let (tab, i) := seq_intern sypath (lsyms g2) s in (tab, Some i)
                              | None => (lsyms g2, None)
                              end in
              let d3 := ED (dkind d1) p (dbounds d1) (ddis d1) in
              let g3 := NL (lfiles g2) (lbox g2) (lg g2) (lnode g2) (lid g2)
                           (upd (ledge g2) (eid e) d3) tab in
              match (bj <- field j "bounds" ;; boundsFromJson bj) with
              | Throw => (g3, Throw) | Undef => (g3, Undef)
              | Ok b =>
                let d4 := ED (dkind d3) (dsym d3) b (ddis d3) in
                let g4 := set_edge g3 (eid e) d4 in
                match (x <- field j "disabled" ;; getBool x) with
                | Throw => (g4, Throw) | Undef => (g4, Undef)
                | Ok dis => (set_edge g4 (eid e) (ED (dkind d4) (dsym d4) (dbounds d4) dis), Ok tt)
                end
              end
            end
          end
        end
    | _, _ => (g, Throw)                       (* "edge references unknown node ID" *)
    end
  end.

(** FileTable::addFile and SymbolTable::intern called by one thread: [seq_intern] (C43,
    C44). *)
Definition fstep (g : nlg) (j : json) : nlg * out unit :=
  match getStr j with
  | Ok s => (NL (fst (seq_intern (fun x => x) (lfiles g) s)) (lbox g) (lg g) (lnode g) (lid g) (ledge g) (lsyms g), Ok tt)
  | Throw => (g, Throw)
  | Undef => (g, Undef)
  end.
Definition bstep (g : nlg) (j : json) : nlg * out unit :=
  match getStr j with
  | Ok s => (NL (lfiles g) (lbox g ++ [s]) (lg g) (lnode g) (lid g) (ledge g) (lsyms g), Ok tt)
  | Throw => (g, Throw)
  | Undef => (g, Undef)
  end.

(** deserialize, 265-404, into [g]; also the exception or undefined outcome. *)
Definition deserialize (next : Z) (j : json) (g : nlg) : nlg * out unit :=
  match (v <- field j "version" ;; getI32 v) with
  | Throw => (g, Throw) | Undef => (g, Undef)
  | Ok v =>
    if negb (Z.eqb v 3) then (g, Throw)        (* unsupported version *)
    else match field j "fileTable" with
    | Throw => (g, Throw) | Undef => (g, Undef)
    | Ok fj =>
      match each fstep (elems fj) g with
      | (g1, Throw) => (g1, Throw) | (g1, Undef) => (g1, Undef)
      | (g1, Ok _) =>
        let (g2, r2) := if has j "blackBoxes"
                        then match field j "blackBoxes" with
                             | Ok bj => each bstep (elems bj) g1
                             | Throw => (g1, Throw) | Undef => (g1, Undef)
                             end
                        else (g1, Ok tt) in
        match r2 with
        | Throw => (g2, Throw) | Undef => (g2, Undef)
        | Ok _ =>
          match field j "nodes" with
          | Throw => (g2, Throw) | Undef => (g2, Undef)
          | Ok nj =>
            match each nstep (elems nj) (g2, [], next) with
            | ((g3, _, _), Throw) => (g3, Throw)
            | ((g3, _, _), Undef) => (g3, Undef)
            | ((g3, m, _), Ok _) =>
              match field j "edges" with
              | Throw => (g3, Throw) | Undef => (g3, Undef)
              | Ok ej => each (estep m) (elems ej) g3
              end
            end
          end
        end
      end
    end
  end.

End Serial.

Arguments DPort {cval} _ _ _ _ _.
Arguments DVariable {cval} _ _ _ _.
Arguments DState {cval} _ _ _ _.
Arguments DAssignment {cval} _.
Arguments DConditional {cval} _.
Arguments DCase {cval} _.
Arguments DConstant {cval} _ _ _.
Arguments DMerge {cval}.
Arguments DNone {cval}.
Arguments NL {cval} _ _ _ _ _ _ _.
Arguments nl_empty {cval}.
Arguments lfiles {cval} _.
Arguments lbox {cval} _.
Arguments lg {cval} _.
Arguments lnode {cval} _ _.
Arguments lid {cval} _ _.
Arguments ledge {cval} _ _.
Arguments lsyms {cval} _.
Arguments nodeToJson {cval} _ _ _.
Arguments edgeToJson {cval} _ _.
Arguments serialize {cval} _ _.
Arguments constFromJson {cval} _ _ _.
Arguments nodeFromJson {cval} _ _ _.
Arguments addNodeData {cval} _ _ _.
Arguments nstep {cval} _ _ _ _.
Arguments set_edge {cval} _ _ _.
Arguments estep {cval} _ _ _.
Arguments fstep {cval} _ _.
Arguments bstep {cval} _ _.
Arguments deserialize {cval} _ _ _ _ _.
