(** What a DOT rendering should say: a list of statements, which is the induced subgraph, and
    how DOT text is read. *)
From Coq Require Import Ascii String.
From Verif Require Import Base M_Graph M_Range M_Netlist M_Serial.

Inductive dstmt := DNode (id : Z) (label : str) | DEdge (a b : Z) (label : option str).

(** [Subseq a b]: [a] is [b] with some elements left out. *)
Inductive Subseq {A} : list A -> list A -> Prop :=
| Sub_nil : Subseq [] []
| Sub_take x a b : Subseq a b -> Subseq (x :: a) (x :: b)
| Sub_skip x a b : Subseq a b -> Subseq a (x :: b).

Section SDot.
Variable cval : Type.
Variable ctext : cval -> str.
Variable rtext : range -> str.         (* bit ranges as text *)

Definition scope_of (filter : option (list nat)) (n : nat) : Prop :=
  match filter with None => True | Some l => In n l end.
Definition all_edges (g : nlg cval) : list edge :=
  flat_map (fun n => outs (nst (lg g) n)) (gnodes (lg g)).

Inductive Label : ndata cval -> str -> Prop :=
| L_in n p l b : Label (DPort n p l DIn b) (lit "In port " ++ n)
| L_out n p l b : Label (DPort n p l DOut b) (lit "Out port " ++ n)
| L_inout n p l b : Label (DPort n p l DInOut b) (lit "InOut port " ++ n)
| L_ref n p l b : Label (DPort n p l DRef b) (lit "Ref port " ++ n)
| L_var n p l b : Label (DVariable n p l b) (lit "Variable " ++ n)
| L_state n p l b : Label (DState n p l b) (n ++ " "%char :: rtext b)
| L_assign l : Label (DAssignment l) (lit "Assignment")
| L_cond l : Label (DConditional l) (lit "Conditional")
| L_case l : Label (DCase l) (lit "Case")
| L_merge : Label DMerge (lit "Merge")
| L_const v w l : Label (DConstant v w l) (lit "Const " ++ ctext v).
Definition NodeStmt (g : nlg cval) (n : nat) (s : dstmt) : Prop :=
  exists l, Label (lnode g n) l /\ s = DNode (lid g n) l.

Inductive Elabel (g : nlg cval) (e : edge) : option str -> Prop :=
| E_named i s c r : dsym (ledge g (eid e)) = Some i -> nth_error (lsyms g) i = Some s -> syname s = c :: r ->
    Elabel g e (Some (c :: r ++ rtext (dbounds (ledge g (eid e)))))
| E_empty i s : dsym (ledge g (eid e)) = Some i -> nth_error (lsyms g) i = Some s -> syname s = [] ->
    Elabel g e None
| E_dangling i : dsym (ledge g (eid e)) = Some i -> nth_error (lsyms g) i = None -> Elabel g e None
| E_null : dsym (ledge g (eid e)) = None -> Elabel g e None.
Definition EdgeStmt (g : nlg cval) (e : edge) (s : dstmt) : Prop :=
  exists l, Elabel g e l /\ s = DEdge (lid g (esrc e)) (lid g (etgt e)) l.

(** The statements of the subgraph of [g] induced by a scope: nodes, then edges, in graph
    order. *)
Definition Induced (g : nlg cval) (filter : option (list nat)) (out : list dstmt) : Prop :=
  exists ns es sn se, out = sn ++ se /\
    Subseq ns (gnodes (lg g)) /\ NoDup ns /\
    (forall n, In n ns <-> In n (gnodes (lg g)) /\ scope_of filter n) /\
    Subseq es (all_edges g) /\ NoDup es /\
    (forall e, In e es <-> In e (all_edges g) /\ ddis (ledge g (eid e)) = false /\
                           scope_of filter (esrc e) /\ scope_of filter (etgt e)) /\
    Forall2 (NodeStmt g) ns sn /\ Forall2 (EdgeStmt g) es se.
End SDot.

(** * Text *)
(** Statements as text; [num] prints numbers. *)
Definition stmt_text (num : Z -> str) (s : dstmt) : str :=
  match s with
  | DNode id l => lit "  N" ++ num id ++ lit " [label=""" ++ l ++ lit """]" ++ ["010"%char]
  | DEdge a b None => lit "  N" ++ num a ++ lit " -> N" ++ num b ++ ["010"%char]
  | DEdge a b (Some l) => lit "  N" ++ num a ++ lit " -> N" ++ num b ++ lit " [label=""" ++ l ++ lit """]" ++ ["010"%char]
  end.
Definition doc_text (num : Z -> str) (out : list dstmt) : str :=
  lit "digraph {" ++ "010"%char :: lit "  node [shape=record];" ++ "010"%char ::
  concat (map (stmt_text num) out) ++ lit "}" ++ ["010"%char].

(** * Reading *)
(** The fragment of the DOT language that is written.  A quoted string ends at the first
    quote that is not behind a backslash; a backslash takes the next character with it. *)
Inductive Quoted : str -> str -> Prop :=   (* source between the quotes, value *)
| Q_end : Quoted [] []
| Q_char c s v : c <> """"%char -> c <> "\"%char -> Quoted s v -> Quoted (c :: s) (c :: v)
| Q_quote s v : Quoted s v -> Quoted ("\"%char :: """"%char :: s) (""""%char :: v)
| Q_back c s v : c <> """"%char -> Quoted s v -> Quoted ("\"%char :: c :: s) ("\"%char :: c :: v).
Section Read.
Variable Num : str -> Z -> Prop.            (* numerals *)
Inductive Attr : str -> str -> Prop :=
| A_label q v : Quoted q v -> Attr (lit " [label=""" ++ q ++ lit """]") v.
Inductive StmtText : str -> dstmt -> Prop :=
| T_node x id t l : Num x id -> Attr t l -> StmtText (lit "  N" ++ x ++ t ++ ["010"%char]) (DNode id l)
| T_edge x a y b : Num x a -> Num y b ->
    StmtText (lit "  N" ++ x ++ lit " -> N" ++ y ++ ["010"%char]) (DEdge a b None)
| T_edgel x a y b t l : Num x a -> Num y b -> Attr t l ->
    StmtText (lit "  N" ++ x ++ lit " -> N" ++ y ++ t ++ ["010"%char]) (DEdge a b (Some l)).
Inductive DocText : str -> list dstmt -> Prop :=
| T_doc ts ss : Forall2 StmtText ts ss ->
    DocText (lit "digraph {" ++ "010"%char :: lit "  node [shape=record];" ++ "010"%char ::
             concat ts ++ lit "}" ++ ["010"%char]) ss.
End Read.
