(** Model of include/netlist/NetlistDot.hpp.  FormatBuffer and fmt (external) append text;
    toString(ArgumentDirection) (external) gives the enumerator names. *)
From Coq Require Import Ascii String.
From Verif Require Import Base M_Graph M_Range M_Netlist M_Text M_Serial.

Definition c_nl : ascii := "010"%char.

Section Dot.
Variable cval : Type.
Variable ctext : cval -> str.          (* ConstantValue::toString, external *)
Notation ndata := (ndata cval).
Notation nlg := (nlg cval).

(** writeNode, 29-73, without the common part of the lines; [None]: SLANG_UNREACHABLE. *)
Definition node_label (d : ndata) : option str :=
  match d with
  | DPort name _ _ dir _ => Some (directionToString dir ++ lit " port " ++ name)
  | DVariable name _ _ _ => Some (lit "Variable " ++ name)
  | DAssignment _ => Some (lit "Assignment")
  | DCase _ => Some (lit "Case")
  | DConditional _ => Some (lit "Conditional")
  | DMerge => Some (lit "Merge")
  | DState name _ _ b => Some (name ++ lit " " ++ range_toString b)
  | DConstant v _ _ => Some (lit "Const " ++ ctext v)
  | DNone => None
  end.
Definition writeNode (id : Z) (d : ndata) : option str :=
  match node_label d with
  | Some l => Some (lit "  N" ++ print_int id ++ lit " [label=""" ++ l ++ lit """]" ++ [c_nl])
  | None => None
  end.

(** 78-80; a set of nodes is a list. *)
Definition included (filter : option (list nat)) (n : nat) : bool :=
  match filter with None => true | Some l => existsb (Nat.eqb n) l end.

(** 84-89. *)
Fixpoint write_nodes (g : nlg) (filter : option (list nat)) (ns : list nat) : option str :=
  match ns with
  | [] => Some []
  | n :: r =>
      if negb (included filter n) then write_nodes g filter r
      else match writeNode (lid g n) (lnode g n), write_nodes g filter r with
           | Some a, Some b => Some (a ++ b)
           | _, _ => None
           end
  end.

(** The symbol an edge points to. *)
Definition edge_symbol (g : nlg) (e : edge) : option sym :=
  match dsym (ledge g (eid e)) with Some i => nth_error (lsyms g) i | None => None end.
(** 101-108 for an edge of [n]. *)
Definition writeEdge (g : nlg) (n : nat) (e : edge) : str :=
  let ends := lit "  N" ++ print_int (lid g n) ++ lit " -> N" ++ print_int (lid g (etgt e)) in
  match edge_symbol g e with
  | Some s =>
      match syname s with
      | [] => ends ++ [c_nl]
      | _ => ends ++ lit " [label=""" ++ syname s ++ range_toString (dbounds (ledge g (eid e))) ++ lit """]" ++ [c_nl]
      end
  | None => ends ++ [c_nl]
  end.
(** 94-110. *)
Fixpoint write_edges (g : nlg) (filter : option (list nat)) (n : nat) (es : list edge) : str :=
  match es with
  | [] => []
  | e :: r =>
      if ddis (ledge g (eid e)) then write_edges g filter n r
      else if negb (included filter (etgt e)) then write_edges g filter n r
      else writeEdge g n e ++ write_edges g filter n r
  end.
(** 90-110. *)
Fixpoint write_all_edges (g : nlg) (filter : option (list nat)) (ns : list nat) : str :=
  match ns with
  | [] => []
  | n :: r =>
      if negb (included filter n) then write_all_edges g filter r
      else write_edges g filter n (outs (nst (lg g) n)) ++ write_all_edges g filter r
  end.

(** renderImpl, 75-112. *)
Definition render (g : nlg) (filter : option (list nat)) : option str :=
  match write_nodes g filter (gnodes (lg g)) with
  | None => None
  | Some a =>
      Some (lit "digraph {" ++ [c_nl] ++ lit "  node [shape=record];" ++ [c_nl] ++
            a ++ write_all_edges g filter (gnodes (lg g)) ++ lit "}" ++ [c_nl])
  end.
End Dot.
