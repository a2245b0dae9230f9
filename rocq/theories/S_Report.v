(** What the report of a path should be. *)
From Coq Require Import Ascii String.
From Verif Require Import Base M_Graph M_Range M_Netlist M_Text M_Serial M_Report.

Section SReport.
Variable cval : Type.
Notation ndata := (ndata cval).
Notation nlg := (nlg cval).
Variable g : nlg.

(** A location: unknown, or file:line:column. *)
Inductive LocText : loc -> str -> Prop :=
| LT_none l : lfile l = 4294967295%Z -> LocText l (lit "?")
| LT_file l f : (0 <= lfile l < 4294967295)%Z -> nth_error (lfiles g) (Z.to_nat (lfile l)) = Some f ->
    LocText l (f ++ lit ":" ++ print_int (lline l) ++ lit ":" ++ print_int (lcol l)).
Definition known_file (l : loc) : Prop := exists t, LocText l t.

(** One line of the report. *)
Inductive Note : loc -> str -> str -> Prop :=
| Nt l t what : LocText l t -> Note l what (t ++ lit ": note: " ++ what ++ ["010"%char]).

Inductive NodeNote : ndata -> str -> Prop :=
| NN_in n p l b t : Note l (lit "input port " ++ n) t -> NodeNote (DPort n p l DIn b) t
| NN_out n p l b t : Note l (lit "output port " ++ n) t -> NodeNote (DPort n p l DOut b) t
| NN_assign l t : Note l (lit "assignment") t -> NodeNote (DAssignment l) t
| NN_cond l t : Note l (lit "conditional statement") t -> NodeNote (DConditional l) t
| NN_case l t : Note l (lit "case statement") t -> NodeNote (DCase l) t
| NN_var n p l b : NodeNote (DVariable n p l b) []
| NN_state n p l b : NodeNote (DState n p l b) []
| NN_const v w l : NodeNote (DConstant v w l) []
| NN_merge : NodeNote DMerge []
| NN_none : NodeNote DNone [].
Inductive NodeDiag : ndata -> list diag -> Prop :=
| ND_in n p l b : NodeDiag (DPort n p l DIn b) [GIn n]
| ND_out n p l b : NodeDiag (DPort n p l DOut b) [GOut n]
| ND_assign l : NodeDiag (DAssignment l) [GAssign]
| ND_cond l : NodeDiag (DConditional l) [GCond]
| ND_case l : NodeDiag (DCase l) [GCase]
| ND_var n p l b : NodeDiag (DVariable n p l b) []
| ND_state n p l b : NodeDiag (DState n p l b) []
| ND_const v w l : NodeDiag (DConstant v w l) []
| ND_merge : NodeDiag DMerge []
| ND_none : NodeDiag DNone [].

(** The symbol an edge carries, if it has a name. *)
Definition Carries (e : edge) (s : sym) : Prop :=
  exists i, dsym (ledge g (eid e)) = Some i /\ nth_error (lsyms g) i = Some s /\ syname s <> [].
Definition value_text (e : edge) (s : sym) : str := sypath s ++ range_toString (dbounds (ledge g (eid e))).
Inductive EdgeNote (e : edge) : str -> Prop :=
| EN_value s t : Carries e s -> Note (syloc s) (lit "value " ++ value_text e s) t -> EdgeNote e t
| EN_none : (forall s, ~ Carries e s) -> EdgeNote e [].
Inductive EdgeDiag (e : edge) : list diag -> Prop :=
| ED_value s : Carries e s -> EdgeDiag e [GValue (value_text e s)]
| ED_none : (forall s, ~ Carries e s) -> EdgeDiag e [].

(** Notes along a path: every node, and between two nodes an edge from one to the other. *)
Inductive Along {A} (N : ndata -> list A -> Prop) (E : edge -> list A -> Prop) : list nat -> list edge -> list A -> Prop :=
| Al_last n t : N (lnode g n) t -> Along N E [n] [] t
| Al_step a b r e es ta te tr : N (lnode g a) ta -> In e (outs (nst (lg g) a)) -> etgt e = b -> E e te ->
    Along N E (b :: r) es tr -> Along N E (a :: b :: r) (e :: es) (ta ++ te ++ tr).

(** Nodes that have a line of their own, and the choice between the two forms: diagnostics are
    used when they exist and the first such node of the path has its source text. *)
Inductive Located : ndata -> Prop :=
| Lo_port n p l dir b : Located (DPort n p l dir b)
| Lo_assign l : Located (DAssignment l)
| Lo_cond l : Located (DConditional l)
| Lo_case l : Located (DCase l).
Definition WithSource (diags : bool) (live : nat -> bool) (p : list nat) : Prop :=
  diags = true /\ exists pre n suf, p = pre ++ n :: suf /\ (forall m, In m pre -> ~ Located (lnode g m)) /\
    Located (lnode g n) /\ live n = true.

(** Ports that are neither input nor output. *)
Definition OddPort (d : ndata) : Prop :=
  exists n p l dir b, d = DPort n p l dir b /\ dir <> DIn /\ dir <> DOut.
(** All files that are referred to are in the file table. *)
Definition data_loc (d : ndata) : option loc :=
  match d with
  | DPort _ _ l _ _ | DVariable _ _ l _ | DState _ _ l _ | DAssignment l | DConditional l | DCase l | DConstant _ _ l => Some l
  | _ => None
  end.
Definition FilesKnown : Prop :=
  (forall n l, In n (gnodes (lg g)) -> data_loc (lnode g n) = Some l -> known_file l) /\
  (forall s, In s (lsyms g) -> known_file (syloc s)).
End SReport.
