(** Model of NetlistBuilder::addDependency, source/NetlistBuilder.cpp 69-106, and
    NetlistEdge::setVariable / setEdgeKind, include/netlist/NetlistEdge.hpp 28-53. *)
From Verif Require Import Base M_Graph M_Range M_Netlist.

(** A freshly constructed edge, NetlistEdge.hpp 20-23. *)
Definition default_attr : eattr := EAttr EKNone None (Range 0%Z 0%Z) false.

(** setVariable, 41-53. A null symbol is [None]. Result: the edge and the returned
    flag; [None]: signed overflow in isContiguousWith. *)
Definition setVariable (x : eattr) (sym : option str) (r : range) : option (eattr * bool) :=
  let same := match asym x, sym with Some p, Some q => str_eqb p q | _, _ => false end in
  if same then
    match isContiguousWith (abounds x) r with
    | Some true => match unionWith (abounds x) r with
                   | Some u => Some (EAttr (akind x) (asym x) u (adis x), true)
                   | None => None
                   end
    | Some false => Some (x, false)
    | None => None
    end
  else Some (EAttr (akind x) sym r (adis x), true).
Definition setEdgeKind (x : eattr) (k : edgekind) : eattr := EAttr k (asym x) (abounds x) (adis x).

(** addEdge / addNewEdge on a netlist: a new edge object starts with default fields. *)
Definition with_edge (nl : netlist) (g : graph) (e : edge) : netlist :=
  Netlist g (ninf nl)
    (if Nat.ltb (eid e) (nexte (ng nl)) then eatt nl else upd (eatt nl) (eid e) default_attr).
Definition nl_addEdge (nl : netlist) (a b : nat) : option (netlist * edge) :=
  match g_addEdge outEdgeIndexThreshold (ng nl) a b with
  | Some (g, e) => Some (with_edge nl g e, e)
  | None => None
  end.
Definition nl_addNewEdge (nl : netlist) (a b : nat) : option (netlist * edge) :=
  match g_addNewEdge outEdgeIndexThreshold (ng nl) a b with
  | Some (g, e) => Some (with_edge nl g e, e)
  | None => None
  end.
Definition set_attr (nl : netlist) (e : edge) (x : eattr) : netlist :=
  Netlist (ng nl) (ninf nl) (upd (eatt nl) (eid e) x).

(** addDependency(source, target), 69-71. *)
Definition addPlain (nl : netlist) (a b : nat) : option netlist := option_map fst (nl_addEdge nl a b).

(** Lines 79-89: the requested bounds cut down to the bounds of the source node.
    ConstantRange::intersect (external) of overlapping ranges, then normalised. *)
Definition edgeBounds (nl : netlist) (a : nat) (r : range) : range :=
  match nbounds (ninf nl a) with
  | Some nb => if overlaps r nb then Range (Z.max (lower r) (lower nb)) (Z.min (upper r) (upper nb)) else r
  | None => r
  end.
(** addDependency with annotation, 73-106. *)
Definition addDependency (nl : netlist) (a b : nat) (sym : option str) (r : range) (k : edgekind)
    : option netlist :=
  let eb := edgeBounds nl a r in
  match nl_addEdge nl a b with
  | None => None
  | Some (nl1, e) =>
    match setVariable (eatt nl1 (eid e)) sym eb with
    | None => None
    | Some (x, true) => Some (set_attr nl1 e (setEdgeKind x k))
    | Some (_, false) =>
      match nl_addNewEdge nl1 a b with
      | None => None
      | Some (nl2, e2) =>
        match setVariable (eatt nl2 (eid e2)) sym eb with
        | None => None
        | Some (x, _) => Some (set_attr nl2 e2 (setEdgeKind x k))
        end
      end
    end
  end.

Inductive dep := DPlain (a b : nat) | DDep (a b : nat) (sym : option str) (r : range) (k : edgekind).
Definition dstep (nl : netlist) (d : dep) : option netlist :=
  match d with
  | DPlain a b => addPlain nl a b
  | DDep a b s r k => addDependency nl a b s r k
  end.
Fixpoint drun (nl : netlist) (ds : list dep) : option netlist :=
  match ds with
  | [] => Some nl
  | d :: r => match dstep nl d with Some nl' => drun nl' r | None => None end
  end.
