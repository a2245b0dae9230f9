(** Model of the attributes of include/netlist/NetlistNode.hpp and
    include/netlist/NetlistEdge.hpp, attached to the container of M_Graph.v. *)
From Coq Require Import Ascii String.
From Verif Require Import Base M_Graph M_Range.

(** Text is a list of characters. *)
Definition str := list ascii.
Definition lit (s : string) : str := list_ascii_of_string s.
Definition str_eqb (a b : str) : bool := if list_eq_dec ascii_dec a b then true else false.

Lemma str_eqb_eq a b : str_eqb a b = true <-> a = b.
Proof. unfold str_eqb. destruct (list_eq_dec ascii_dec a b); split; congruence. Qed.

(** NodeKind, NetlistNode.hpp 19-29. *)
Inductive kind := KNone | KPort | KVariable | KAssignment | KConditional | KCase | KMerge
                | KState | KConstant.
Definition kind_eqb (a b : kind) : bool :=
  match a, b with
  | KNone, KNone | KPort, KPort | KVariable, KVariable | KAssignment, KAssignment
  | KConditional, KConditional | KCase, KCase | KMerge, KMerge | KState, KState
  | KConstant, KConstant => true
  | _, _ => false
  end.
Lemma kind_eqb_eq a b : kind_eqb a b = true <-> a = b.
Proof. destruct a, b; simpl; split; congruence. Qed.

(** ast::EdgeKind (external enum). *)
Inductive edgekind := EKNone | EKPos | EKNeg | EKBoth.
Definition edgekind_eqb (a b : edgekind) : bool :=
  match a, b with
  | EKNone, EKNone | EKPos, EKPos | EKNeg, EKNeg | EKBoth, EKBoth => true
  | _, _ => false
  end.
Lemma edgekind_eqb_eq a b : edgekind_eqb a b = true <-> a = b.
Proof. destruct a, b; simpl; split; congruence. Qed.

(** ast::ArgumentDirection (external enum). *)
Inductive direction := DIn | DOut | DInOut | DRef.

(** What a node answers to ID, kind, getHierarchicalPath and getBounds
    (NetlistNode.hpp 37-61 and overrides). *)
Record ninfo := NInfo { nid : nat; nkind : kind; npath : option str; nbounds : option range }.

(** Fields of NetlistEdge, NetlistEdge.hpp 20-23; [asym] is the
    SymbolReference pointer as the hierarchical path it points to (interning makes
    pointer equality and path equality coincide, C44). *)
Record eattr := EAttr { akind : edgekind; asym : option str; abounds : range; adis : bool }.

(** Node and edge objects with their attributes. *)
Record netlist := Netlist { ng : graph; ninf : nat -> ninfo; eatt : nat -> eattr }.

Definition nlkind (nl : netlist) (n : nat) : kind := nkind (ninf nl n).
Definition isState (nl : netlist) (n : nat) : bool := kind_eqb (nlkind nl n) KState.
Definition edisabled (nl : netlist) (e : edge) : bool := adis (eatt nl (eid e)).

Definition nouts (nl : netlist) (n : nat) : list edge := outs (nst (ng nl) n).
Definition nins (nl : netlist) (n : nat) : list edge := ins (nst (ng nl) n).

(** Convenient construction of concrete netlists for examples: nodes are numbered
    0.. in list order, edges likewise. *)
Definition mk_graph (n : nat) (es : list (nat * nat)) : graph :=
  match run outEdgeIndexThreshold empty_graph
          (repeat OAddNode n ++ map (fun p => OAddNewEdge (fst p) (snd p)) es) with
  | Some (g, _) => g
  | None => empty_graph
  end.
Definition mk_netlist (ns : list ninfo) (es : list (nat * nat * eattr)) : netlist :=
  Netlist (mk_graph (List.length ns) (map fst es))
          (fun n => nth n ns (NInfo n KNone None None))
          (fun i => nth i (map snd es) (EAttr EKNone None (Range 0%Z 0%Z) false)).
