(** Specification vocabulary for the builder. *)
From Verif Require Import Base M_Graph M_Range M_Netlist M_Annot M_Interval M_Heap M_Drivers M_Pending M_DFA M_Builder
  S_Interval S_Drivers S_DFA.
Local Open Scope Z_scope.

(** The events of a timing control, when they are all signal events. *)
Inductive is_events : timing -> list (edgekind * option nat) -> Prop :=
| ev_signal k sy : is_events (TSignal k sy) [(k, sy)]
| ev_list l : is_events (TList (map (fun e => EvSignal (fst e) (snd e)) l)) l.
Definition always (pk : prockind) : Prop := pk = PAlwaysFF \/ pk = PAlways.
Definition edge_event (e : edgekind * option nat) : Prop := fst e <> EKNone.
(** "Its timing control consists only of edge events". *)
Definition edge_triggered (l : list (edgekind * option nat)) : Prop := l <> [] /\ forall e, In e l -> edge_event e.

(** A driver map that addDrivers calls have built and that has no stale handle. *)
Definition built (d : dmap) : Prop := (exists h, run_calls dm_empty h = DOk d) /\ ~ dangling d.
(** Node [n] is among the drivers of bit [i] of the symbol with driver map [d]. *)
Definition drives (d : dmap) (i : Z) (n : nat) : Prop :=
  exists x l, In x (ivs d) /\ ilo x <= i <= ihi x /\ get (lists d) (ival x) = Some l /\ In n l.
Definition drives_global (dm : nat -> option dmap) (sy : nat) (i : Z) (n : nat) : Prop :=
  exists d, dm sy = Some d /\ drives d i n.

(** Histories of nodes registered for symbols, as in [S_Interval.v]; no two nodes of one
    symbol share a bit. *)
Definition apart_nodes (ops : list (nat * range * nat)) : Prop :=
  forall p s b n q b' n' r, ops = p ++ (s, b, n) :: q ++ (s, b', n') :: r -> forall i, ~ (bit b i /\ bit b' i).

(** Edge to a port node that carries bit [i]. *)
Definition hooked (ds : list dep) (d n : nat) (name : str) (i : Z) : Prop :=
  exists b, In (DDep d n (Some name) b EKNone) ds /\ bit b i.

(** Interface variable [v] with bounds [b] lies behind a path, through any number of
    modport ports. *)
Inductive reaches : ipath -> nat -> range -> Prop :=
| reaches_var v b : reaches (IVar v b) v b
| reaches_port l p v b : In p l -> reaches p v b -> reaches (IPort l) v b.
Definition behind_var (l : list ipath) (v : nat) (b : range) : Prop := exists p, In p l /\ reaches p v b.
