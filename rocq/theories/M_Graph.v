(** Model of include/netlist/DirectedGraph.hpp (sequential behaviour).

    Simplifications: node and edge objects are identities ([nat]) that are never
    reused; mutexes are irrelevant here (see M_Conc.v); [assert] failure is the
    outcome [None].  Attributes of nodes and edges live in M_Netlist.v. *)
From Verif Require Import Base.

(** DirectedEdge, DirectedGraph.hpp 15-52: object identity plus the two constant
    references to source and target. *)
Record edge := Edge { eid : nat; esrc : nat; etgt : nat }.

(** Node, DirectedGraph.hpp 270-279: outEdges, inEdges, outEdgeIndex (null or a
    map from target to edge; an association list with unique keys). *)
Record nstate := NState {
  outs : list edge;
  ins : list edge;
  oidx : option (list (nat * edge)) }.

(** DirectedGraph, DirectedGraph.hpp 476-483: the vector of nodes.  [nextn] and
    [nexte] supply fresh object identities. *)
Record graph := Graph {
  gnodes : list nat;
  nst : nat -> nstate;
  nextn : nat;
  nexte : nat }.

Definition empty_nstate := NState [] [] None.
Definition empty_graph := Graph [] (fun _ => empty_nstate) 0 0.

Definition to (b : nat) (e : edge) : bool := Nat.eqb (etgt e) b.
Definition from (a : nat) (e : edge) : bool := Nat.eqb (esrc e) a.

(** findEdgeTo, DirectedGraph.hpp 118-129. *)
Definition findEdgeTo (s : nstate) (b : nat) : option edge := find (to b) (outs s).

(** findEdgeFrom, DirectedGraph.hpp 104-115. *)
Definition findEdgeFrom (s : nstate) (a : nat) : option edge := find (from a) (ins s).

(** Hash map operations used on outEdgeIndex: find, (try_)emplace, erase,
    operator[] assignment. *)
Definition idx_find (m : list (nat * edge)) (b : nat) : option edge :=
  match find (fun kv => Nat.eqb (fst kv) b) m with
  | Some (_, e) => Some e
  | None => None
  end.
Definition idx_emplace (m : list (nat * edge)) (b : nat) (e : edge) :=
  match idx_find m b with Some _ => m | None => (b, e) :: m end.
Definition idx_erase (m : list (nat * edge)) (b : nat) :=
  filter (fun kv => negb (Nat.eqb (fst kv) b)) m.
Definition idx_set (m : list (nat * edge)) (b : nat) (e : edge) := (b, e) :: idx_erase m b.

(** lookupOutEdge, DirectedGraph.hpp 311-320. *)
Definition lookupOutEdge (s : nstate) (b : nat) : option edge :=
  match oidx s with
  | Some m => idx_find m b
  | None => find (to b) (outs s)
  end.

(** buildOutEdgeIndex, DirectedGraph.hpp 324-330. *)
Definition buildOutEdgeIndex (es : list edge) : list (nat * edge) :=
  fold_left (fun m e => idx_emplace m (etgt e) e) es [].

(** outEdgeIndexThreshold, DirectedGraph.hpp 283. *)
Definition outEdgeIndexThreshold : nat := 16.

(** insertOutEdgeIndex, DirectedGraph.hpp 335-341, and tryInsertOutEdgeIndex,
    345-351.  [emplace] and [try_emplace] both keep an existing entry, so the two
    functions coincide.  [thr] is the threshold (16 in the code). *)
Definition insertOutEdgeIndex (thr : nat) (idx : option (list (nat * edge)))
    (es : list edge) (b : nat) (e : edge) : option (list (nat * edge)) :=
  match idx with
  | Some m => Some (idx_emplace m b e)
  | None => if Nat.ltb thr (length es) then Some (buildOutEdgeIndex es) else None
  end.

(** The effect shared by addEdge (150-158) and addNewEdge (172-192) on the source
    and target node: push on outEdges, update the index, push on inEdges. *)
Definition pushEdge (thr : nat) (g : graph) (a b : nat) : graph * edge :=
  let e := Edge (nexte g) a b in
  let sa := nst g a in
  let es := outs sa ++ [e] in
  let sa' := NState es (ins sa) (insertOutEdgeIndex thr (oidx sa) es b e) in
  let f1 := upd (nst g) a sa' in
  let sb := f1 b in
  let f2 := upd f1 b (NState (outs sb) (ins sb ++ [e]) (oidx sb)) in
  (Graph (gnodes g) f2 (nextn g) (S (nexte g)), e).

(** Node::addEdge, DirectedGraph.hpp 144-161. *)
Definition node_addEdge (thr : nat) (g : graph) (a b : nat) : graph * edge :=
  match lookupOutEdge (nst g a) b with
  | Some e => (g, e)
  | None => pushEdge thr g a b
  end.

(** Node::addNewEdge, DirectedGraph.hpp 170-194. *)
Definition node_addNewEdge (thr : nat) (g : graph) (a b : nat) : graph * edge :=
  pushEdge thr g a b.

(** Node::removeInEdge, DirectedGraph.hpp 299-306. *)
Definition removeInEdge (g : graph) (b a : nat) : graph * bool :=
  let sb := nst g b in
  match findEdgeFrom sb a with
  | Some _ => (Graph (gnodes g)
                 (upd (nst g) b (NState (outs sb) (remove_first (from a) (ins sb)) (oidx sb)))
                 (nextn g) (nexte g), true)
  | None => (g, false)
  end.

(** Node::removeEdge, DirectedGraph.hpp 198-219.  [None]: the assertion on line
    202 fails. *)
Definition node_removeEdge (g : graph) (a b : nat) : option (graph * bool) :=
  match findEdgeTo (nst g a) b with
  | None => Some (g, false)
  | Some _ =>
    let (g1, success) := removeInEdge g b a in
    if success then
      let sa := nst g1 a in
      let es := remove_first (to b) (outs sa) in
      let idx := match oidx sa with
                 | None => None
                 | Some m => Some (match find (to b) es with
                                   | None => idx_erase m b
                                   | Some e => idx_set m b e
                                   end)
                 end in
      Some (Graph (gnodes g1) (upd (nst g1) a (NState es (ins sa) idx)) (nextn g1) (nexte g1), true)
    else None
  end.

(** Node::clearAllEdges, DirectedGraph.hpp 222-239.  [None]: a failed assertion in
    removeEdge or the final assert(inEdges.empty()). *)
Fixpoint clear_outs (g : graph) (n : nat) (es : list edge) : graph :=
  match es with
  | [] => g
  | e :: r => clear_outs (fst (removeInEdge g (etgt e) n)) n r
  end.
Fixpoint clear_ins (g : graph) (n : nat) (sources : list nat) : option graph :=
  match sources with
  | [] => Some g
  | s :: r => match node_removeEdge g s n with
              | Some (g', _) => clear_ins g' n r
              | None => None
              end
  end.
Definition clearAllEdges (g : graph) (n : nat) : option graph :=
  let g1 := clear_outs g n (outs (nst g n)) in
  let s1 := nst g1 n in
  let g2 := Graph (gnodes g1) (upd (nst g1) n (NState [] (ins s1) None)) (nextn g1) (nexte g1) in
  match clear_ins g2 n (map esrc (ins (nst g2 n))) with
  | None => None
  | Some g3 => match ins (nst g3 n) with [] => Some g3 | _ :: _ => None end
  end.

(** getEdgesTo, DirectedGraph.hpp 243-252. *)
Definition getEdgesTo (s : nstate) (b : nat) : list edge := filter (to b) (outs s).

(** findNode, DirectedGraph.hpp 377-386 (as the position, [None] for null_node). *)
Fixpoint find_index (n : nat) (l : list nat) : option nat :=
  match l with
  | [] => None
  | x :: r => if Nat.eqb x n then Some 0 else option_map S (find_index n r)
  end.
Definition findNode (g : graph) (n : nat) : option nat := find_index n (gnodes g).
Definition hasNode (g : graph) (n : nat) : bool :=
  match findNode g n with Some _ => true | None => false end.

(** addNode, DirectedGraph.hpp 397-410. *)
Definition addNode (g : graph) : graph * nat :=
  (Graph (gnodes g ++ [nextn g]) (upd (nst g) (nextn g) empty_nstate) (S (nextn g)) (nexte g),
   nextn g).

Fixpoint erase_at (i : nat) (l : list nat) : list nat :=
  match l, i with
  | [], _ => []
  | _ :: r, 0 => r
  | x :: r, S j => x :: erase_at j r
  end.

(** removeNode, DirectedGraph.hpp 416-427. *)
Definition removeNode (g : graph) (n : nat) : option (graph * bool) :=
  match findNode g n with
  | None => Some (g, false)
  | Some i =>
    match clearAllEdges g n with
    | None => None
    | Some g' => Some (Graph (erase_at i (gnodes g')) (nst g') (nextn g') (nexte g'), true)
    end
  end.

(** DirectedGraph::addEdge 430-434, addNewEdge 438-442, removeEdge 446-450, with
    their assertions. *)
Definition g_addEdge (thr : nat) (g : graph) (a b : nat) : option (graph * edge) :=
  if hasNode g a && hasNode g b then Some (node_addEdge thr g a b) else None.
Definition g_addNewEdge (thr : nat) (g : graph) (a b : nat) : option (graph * edge) :=
  if hasNode g a && hasNode g b then Some (node_addNewEdge thr g a b) else None.
Definition g_removeEdge (g : graph) (a b : nat) : option (graph * bool) :=
  if hasNode g a && hasNode g b then node_removeEdge g a b else None.

(** outDegree / inDegree / numNodes / numEdges, DirectedGraph.hpp 453-474. *)
Definition outDegree (g : graph) (n : nat) : nat := length (outs (nst g n)).
Definition inDegree (g : graph) (n : nat) : nat := length (ins (nst g n)).
Definition numNodes (g : graph) : nat := length (gnodes g).
Definition numEdges (g : graph) : nat :=
  fold_left (fun c n => c + outDegree g n) (gnodes g) 0.

(** Histories: every public mutator, with its observable result. *)
Inductive op := OAddNode | ORemoveNode (n : nat) | OAddEdge (a b : nat)
              | OAddNewEdge (a b : nat) | ORemoveEdge (a b : nat).
Inductive res := RNode (n : nat) | REdge (e : edge) | RBool (b : bool).

Definition step (thr : nat) (g : graph) (o : op) : option (graph * res) :=
  match o with
  | OAddNode => let (g', n) := addNode g in Some (g', RNode n)
  | ORemoveNode n => option_map (fun p => (fst p, RBool (snd p))) (removeNode g n)
  | OAddEdge a b => option_map (fun p => (fst p, REdge (snd p))) (g_addEdge thr g a b)
  | OAddNewEdge a b => option_map (fun p => (fst p, REdge (snd p))) (g_addNewEdge thr g a b)
  | ORemoveEdge a b => option_map (fun p => (fst p, RBool (snd p))) (g_removeEdge g a b)
  end.

Fixpoint run (thr : nat) (g : graph) (os : list op) : option (graph * list res) :=
  match os with
  | [] => Some (g, [])
  | o :: r => match step thr g o with
              | None => None
              | Some (g', x) => match run thr g' r with
                                | None => None
                                | Some (g'', xs) => Some (g'', x :: xs)
                                end
              end
  end.
