(** Specification vocabulary for concurrent edge insertion. *)
From Verif Require Import Base M_Graph M_Conc.

Definition Finished (s : cstate) : Prop := forall t, todo (th s t) = [].
(** Some call is unfinished and no thread can take a step. *)
Definition Deadlocked (thr : nat) (s : cstate) : Prop :=
  ~ Finished s /\ forall t, cstep thr t s = None.

(** A call as an operation of the sequential container (M_Graph.v). *)
Definition call_op (c : call) : op :=
  match c with CAdd a b => OAddEdge a b | CNew a b => OAddNewEdge a b end.

(** A sequential history: who called what, and the edge it returned. *)
Definition hist := list (nat * call * edge).
Definition h_thread (x : nat * call * edge) : nat := fst (fst x).
Definition h_call (x : nat * call * edge) : call := snd (fst x).
Definition h_of (h : hist) (t : nat) : hist := filter (fun x => Nat.eqb (h_thread x) t) h.

(** Every call names nodes of the graph. *)
Definition Valid (g : graph) (progs : list (list call)) : Prop :=
  forall p c, In p progs -> In c p -> hasNode g (c_src c) = true /\ hasNode g (c_tgt c) = true.

(** Locks are taken in increasing rank (addNewEdge never holds two). *)
Definition Ranked (rank : nat -> nat) (progs : list (list call)) : Prop :=
  forall p a b, In p progs -> In (CAdd a b) p -> a = b \/ rank a < rank b.

(** For each ordered pair of nodes only one thread adds edges. *)
Definition Owned (own : nat -> nat -> nat) (progs : list (list call)) : Prop :=
  forall t c, In c (nth t progs []) -> own (c_src c) (c_tgt c) = t.
