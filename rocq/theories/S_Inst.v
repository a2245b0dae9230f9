(** Specification vocabulary for instance trees. *)
From Verif Require Import Base M_Graph M_Range M_Netlist M_Text S_Text M_Annot M_Interval M_Heap M_Drivers M_Pending M_DFA M_Builder M_Slice M_Port M_Inst.

(** A glob names a text (C23). *)
Definition glob (pat text : str) : Prop := exists ts, Lex pat ts /\ Matches ts text.
(** An instance is black-boxed: some pattern names its definition or its path. *)
Definition Boxed (pats : list str) (path def : str) : Prop := exists p, In p pats /\ (glob p def \/ glob p path).

Section S.
Context {V : Type}.
Notation sym := (@sym V).
Notation iev := (@iev V).

(** [y] belongs to a body with members [ms], directly or through scopes and generate
    blocks that are instantiated. *)
Inductive member_of (y : sym) : list sym -> Prop :=
| mo_here ms : In y ms -> member_of y ms
| mo_gen ms ms' : In (YGen false ms') ms -> member_of y ms' -> member_of y ms
| mo_scope ms ms' : In (YScope ms') ms -> member_of y ms' -> member_of y ms.

(** [body i ms]: the body [ms] of instance [i] lies on the visible side: below the top
    through instances that are instantiated and not black-boxed. *)
Inductive body (pats : list str) (own : nat) (tops : list sym) : nat -> list sym -> Prop :=
| body_top : body pats own tops own tops
| body_sub i ms j path def ms' cs : body pats own tops i ms -> member_of (YInst j path def false ms' cs) ms ->
    ~ Boxed pats path def -> body pats own tops j ms'.
(** An instance in a visible body: its ports and connections are visible. *)
Definition instance (pats : list str) (own : nat) (tops : list sym) (j : nat) (path def : str) (ms : list sym) (cs : list iconn) : Prop :=
  exists i ms', body pats own tops i ms' /\ member_of (YInst j path def false ms cs) ms'.

(** Instance numbers of a tree; [x] occurs in [y]. *)
Fixpoint ids (y : sym) : list nat :=
  match y with
  | YGen _ ms | YScope ms => flat_map ids ms
  | YInst i _ _ _ ms _ => i :: flat_map ids ms
  | _ => []
  end.
Inductive occurs (x : sym) : sym -> Prop :=
| oc_here : occurs x x
| oc_gen u ms z : In z ms -> occurs x z -> occurs x (YGen u ms)
| oc_scope ms z : In z ms -> occurs x z -> occurs x (YScope ms)
| oc_inst i path def u ms cs z : In z ms -> occurs x z -> occurs x (YInst i path def u ms cs).

(** The instance an event belongs to. *)
Definition owner (e : iev) : nat :=
  match e with
  | VCuts i _ => i | VBox i _ => i | VPort i _ _ _ => i | VVar i _ _ => i | VDefer i _ _ => i | VConn i _ _ _ => i
  end.
End S.
