(** Model of source/DepthFirstSearch.hpp.

    The visitor cannot influence the traversal, so the traversal is modelled by the
    sequence of visitor calls it makes (the trace); a visitor is a fold over the
    trace.  [succs n] is the edge list iterated for node [n] (outEdges forward,
    inEdges backward: edgeBegin/edgeEnd/edgePtr, lines 45-64), [nxt] is nextNode
    (66-71), [pred] the edge predicate.  Recursion of run() into itself in tail
    position (105) is the next iteration of the loop. *)
From Verif Require Import Base M_Graph.

(** Visitor calls: visitNode, visitEdge, visitedNode, popNode. *)
Inductive event := ENode (n : nat) | EEdge (e : edge) | EVisited (n : nat) | EPop.

Definition mem (n : nat) (l : list nat) : bool := existsb (Nat.eqb n) l.

Section DFS.
  Context (succs : nat -> list edge) (nxt : edge -> nat) (pred : edge -> bool).

  (** visitedNodes (117) and visitStack (118), top of stack first. *)
  Definition dstate := (list nat * list (nat * list edge))%type.

  (** setup, 74-78. *)
  Definition dfs_init (s : nat) : dstate := ([s], [(s, succs s)]).

  (** One iteration of the loops 82-112. [None] when the stack is empty. *)
  Definition dfs_step (st : dstate) : option (dstate * list event) :=
    match st with
    | (_, []) => None
    | (vis, (n, []) :: rest) => Some ((vis, rest), [EPop])
    | (vis, (n, e :: r) :: rest) =>
        if negb (pred e) then Some ((vis, (n, r) :: rest), [])
        else if mem (nxt e) vis then Some ((vis, (n, r) :: rest), [EVisited (nxt e)])
        else Some ((nxt e :: vis, (nxt e, succs (nxt e)) :: (n, r) :: rest),
                   [EEdge e; ENode (nxt e)])
    end.

  (** run, 81-113, with fuel; [None] = out of fuel. *)
  Fixpoint dfs_run (fuel : nat) (st : dstate) : option (list event) :=
    match dfs_step st with
    | None => Some []
    | Some (st', evs) =>
        match fuel with
        | 0 => None
        | S k => option_map (app evs) (dfs_run k st')
        end
    end.

  (** The constructor, 27-30. *)
  Definition dfs (fuel : nat) (s : nat) : option (list event) :=
    option_map (cons (ENode s)) (dfs_run fuel (dfs_init s)).
End DFS.

(** A fuel that suffices when all nodes met are in [V]. *)
Definition dfs_fuel (succs : nat -> list edge) (V : list nat) : nat :=
  list_sum (map (fun n => S (length (succs n))) V).

(** Projections of a trace. *)
Fixpoint ev_nodes (tr : list event) : list nat :=
  match tr with [] => [] | ENode n :: r => n :: ev_nodes r | _ :: r => ev_nodes r end.
Fixpoint ev_edges (tr : list event) : list edge :=
  match tr with [] => [] | EEdge e :: r => e :: ev_edges r | _ :: r => ev_edges r end.
Fixpoint ev_pops (tr : list event) : nat :=
  match tr with [] => 0 | EPop :: r => S (ev_pops r) | _ :: r => ev_pops r end.
