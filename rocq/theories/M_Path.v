(** Model of source/PathFinder.cpp and of the combinational cone queries of
    source/NetlistGraph.cpp. *)
From Verif Require Import Base M_Graph M_Range M_Netlist M_DFS.

(** Predicates: EdgePredicate, PathFinder.cpp 35-38; CombEdgePredicate, 42-47 (and
    CombLoops.cpp 11-17, NetlistGraph.cpp 125-129); CombFanBackwardPredicate,
    NetlistGraph.cpp 131-135. *)
Definition pred_enabled (nl : netlist) (e : edge) : bool := negb (edisabled nl e).
Definition pred_comb (nl : netlist) (e : edge) : bool :=
  negb (edisabled nl e) && negb (isState nl (etgt e)).
Definition pred_comb_back (nl : netlist) (e : edge) : bool :=
  negb (edisabled nl e) && negb (isState nl (esrc e)).

(** DepthFirstSearch instantiated forward and backward. *)
Definition dfs_fwd (nl : netlist) (pred : edge -> bool) (s : nat) : option (list event) :=
  dfs (nouts nl) etgt pred (dfs_fuel (nouts nl) (gnodes (ng nl))) s.
Definition dfs_bwd (nl : netlist) (pred : edge -> bool) (s : nat) : option (list event) :=
  dfs (nins nl) esrc pred (dfs_fuel (nins nl) (gnodes (ng nl))) s.

(** getCombFanOut / getCombFanIn with CollectVisitor, NetlistGraph.cpp 137-169.
    [None]: out of fuel (excluded by C08). *)
Definition getCombFanOut (nl : netlist) (n : nat) : option (list nat) :=
  option_map ev_nodes (dfs_fwd nl (pred_comb nl) n).
Definition getCombFanIn (nl : netlist) (n : nat) : option (list nat) :=
  option_map ev_nodes (dfs_bwd nl (pred_comb_back nl) n).

(** TraversalMap and Visitor::visitEdge, PathFinder.cpp 13, 22-28: child to parent.
    [None]: the assertion "node cannot have two parents". *)
Definition tmap := list (nat * nat).
Definition tm_find (m : tmap) (n : nat) : option nat :=
  option_map snd (find (fun p => Nat.eqb (fst p) n) m).
Fixpoint pf_visit (tr : list event) (m : tmap) : option tmap :=
  match tr with
  | [] => Some m
  | EEdge e :: r => match tm_find m (etgt e) with
                    | Some _ => None
                    | None => pf_visit r ((etgt e, esrc e) :: m)
                    end
  | _ :: r => pf_visit r m
  end.

(** Outcome of a path query: [PFail] stands for a failed assertion, a null
    dereference, or non-termination of the parent walk. *)
Inductive presult := PPath (p : list nat) | PFail.

(** The do-while loop of buildPath, PathFinder.cpp 60-64, consing the nodes (so the
    final reverse on line 65 is built in).  operator[] on a missing key yields a
    null pointer, caught by the assertion. *)
Fixpoint walk_parents (fuel : nat) (m : tmap) (start cur : nat) (acc : list nat) : presult :=
  match fuel with
  | 0 => PFail
  | S k => match tm_find m cur with
           | None => PFail
           | Some p => if Nat.eqb p start then PPath (p :: acc)
                       else walk_parents k m start p (p :: acc)
           end
  end.

(** buildPath, PathFinder.cpp 49-67. *)
Definition buildPath (m : tmap) (s e : nat) : presult :=
  match tm_find m e with
  | None => PPath []
  | Some _ => if Nat.eqb s e then PPath [e]
              else walk_parents (length m) m s e [e]
  end.

(** find 71-78, findComb 80-87. *)
Definition path_with (nl : netlist) (pred : edge -> bool) (s e : nat) : presult :=
  match dfs_fwd nl pred s with
  | None => PFail
  | Some tr => match pf_visit tr [] with
               | None => PFail
               | Some m => buildPath m s e
               end
  end.
Definition pf_find (nl : netlist) (s e : nat) : presult := path_with nl (pred_enabled nl) s e.
Definition pf_findComb (nl : netlist) (s e : nat) : presult := path_with nl (pred_comb nl) s e.
