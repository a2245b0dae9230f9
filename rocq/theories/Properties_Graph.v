(** C01-C05: the directed graph container. *)
From Verif Require Import Base M_Graph S_Graph P_Graph.

(** A history with a self edge, parallel edges, a node whose out-degree crosses
    the index threshold, an edge removal and a node removal. *)
Definition demo_ops : list op :=
  repeat OAddNode 20 ++ [OAddEdge 0 0; OAddNewEdge 0 1; OAddNewEdge 0 1] ++
  map (fun k => OAddEdge 0 k) (seq 1 19) ++
  [OAddEdge 3 2; OAddEdge 2 0; ORemoveEdge 0 1; ORemoveNode 2; ORemoveEdge 0 19].
Definition demo_graph : graph :=
  match run outEdgeIndexThreshold empty_graph demo_ops with
  | Some (g, _) => g | None => empty_graph end.
Example demo_reachable : reachable outEdgeIndexThreshold demo_graph.
Proof. exists demo_ops. eexists. vm_compute. reflexivity. Qed.
Example demo_nontrivial :
  numEdges demo_graph = 18 /\ numNodes demo_graph = 19 /\
  match oidx (nst demo_graph 0) with Some _ => true | None => false end = true.
Proof. vm_compute. auto. Qed.

(** C01. In every state reachable through the public operations, out- and in-lists
    mirror each other edge for edge, in the same relative order per node pair; every
    edge joins live nodes; edge objects are unique. *)
Theorem c01_mirror : forall g, reachable outEdgeIndexThreshold g -> Mirror g.
Proof. exact (c01 outEdgeIndexThreshold). Qed.
Print Assumptions c01_mirror.

(** C01, C04, C05: no internal assertion can fail; a history is rejected exactly
    when the plain edge-list specification rejects it (an endpoint is not in the
    graph), and otherwise gives the same answers. *)
Theorem c01_no_internal_assert : forall os,
  run outEdgeIndexThreshold empty_graph os = None <-> mg_run mg_empty os = None.
Proof. exact (run_asserts outEdgeIndexThreshold). Qed.
Print Assumptions c01_no_internal_assert.
Example c01_no_internal_assert_nonvacuous :
  exists g rs, run outEdgeIndexThreshold empty_graph demo_ops = Some (g, rs) /\ length rs = 47.
Proof. eexists. eexists. split; vm_compute; reflexivity. Qed.

(** C01/C02: every answer and every list equals that of the edge-list specification. *)
Theorem c01_refines_edge_list : forall os,
  match run outEdgeIndexThreshold empty_graph os, mg_run mg_empty os with
  | Some (g, x), Some (s, y) =>
      x = y /\ gnodes g = mv s /\
      (forall a, outs (nst g a) = filter (fun e => Nat.eqb (esrc e) a) (mE s)) /\
      (forall b, ins (nst g b) = filter (fun e => Nat.eqb (etgt e) b) (mE s))
  | None, None => True
  | _, _ => False
  end.
Proof. exact (run_spec outEdgeIndexThreshold). Qed.
Print Assumptions c01_refines_edge_list.

(** C02. The lazily built index is unobservable: two runs of the same history that
    differ only in when the index is built (including never) agree on every result
    and on every list. *)
Theorem c02_index_unobservable : forall thr1 thr2 os,
  match run thr1 empty_graph os, run thr2 empty_graph os with
  | Some (g1, r1), Some (g2, r2) =>
      r1 = r2 /\ gnodes g1 = gnodes g2 /\
      forall n, outs (nst g1 n) = outs (nst g2 n) /\ ins (nst g1 n) = ins (nst g2 n)
  | None, None => True
  | _, _ => False
  end.
Proof. exact c02. Qed.
Print Assumptions c02_index_unobservable.
Example c02_nonvacuous :
  (exists g, run 0 empty_graph demo_ops = Some (fst g, snd g)) /\
  (exists g, run 1000 empty_graph demo_ops = Some (fst g, snd g)) /\
  match run 1000 empty_graph demo_ops with
  | Some (g, _) => oidx (nst g 0) = None | None => False end.
Proof.
  split; [|split]; [eexists (_, _); vm_compute; reflexivity
                   |eexists (_, _); vm_compute; reflexivity|vm_compute; reflexivity].
Qed.

(** C03. Histories without addNewEdge never contain parallel edges. *)
Theorem c03_no_parallel : forall os g rs, forallb no_new os = true ->
  run outEdgeIndexThreshold empty_graph os = Some (g, rs) ->
  forall a b, length (getEdgesTo (nst g a) b) <= 1.
Proof. exact (c03_simple outEdgeIndexThreshold). Qed.
Print Assumptions c03_no_parallel.
Example c03_no_parallel_nonvacuous :
  exists g rs, forallb no_new [OAddNode; OAddNode; OAddEdge 0 1; OAddEdge 0 1; OAddEdge 1 1] = true /\
  run outEdgeIndexThreshold empty_graph
    [OAddNode; OAddNode; OAddEdge 0 1; OAddEdge 0 1; OAddEdge 1 1] = Some (g, rs) /\ numEdges g = 2.
Proof. eexists. eexists. repeat split; vm_compute; reflexivity. Qed.

(** C03. addEdge returns the first existing edge unchanged, or adds exactly one
    fresh edge object at the end of both lists. *)
Theorem c03_addEdge_exact : forall g a b,
  reachable outEdgeIndexThreshold g -> hasNode g a = true -> hasNode g b = true ->
  exists g' e, g_addEdge outEdgeIndexThreshold g a b = Some (g', e) /\ esrc e = a /\ etgt e = b /\
    ((findEdgeTo (nst g a) b = Some e /\ g' = g) \/
     (findEdgeTo (nst g a) b = None /\
      (forall x y, ~ In e (outs (nst g x)) /\ ~ In e (ins (nst g y))) /\
      outs (nst g' a) = outs (nst g a) ++ [e] /\ ins (nst g' b) = ins (nst g b) ++ [e] /\
      (forall x, x <> a -> outs (nst g' x) = outs (nst g x)) /\
      (forall x, x <> b -> ins (nst g' x) = ins (nst g x)) /\
      gnodes g' = gnodes g)).
Proof. exact (addEdge_cases outEdgeIndexThreshold). Qed.
Print Assumptions c03_addEdge_exact.

(** C03. Repeating addEdge returns the same object and changes nothing. *)
Theorem c03_addEdge_idempotent : forall g a b g1 e1,
  reachable outEdgeIndexThreshold g -> g_addEdge outEdgeIndexThreshold g a b = Some (g1, e1) ->
  g_addEdge outEdgeIndexThreshold g1 a b = Some (g1, e1).
Proof. exact (c03_idem outEdgeIndexThreshold). Qed.
Print Assumptions c03_addEdge_idempotent.
Example c03_addEdge_nonvacuous :
  reachable outEdgeIndexThreshold demo_graph /\ hasNode demo_graph 0 = true /\
  hasNode demo_graph 1 = true /\ hasNode demo_graph 19 = true /\
  findEdgeTo (nst demo_graph 0) 19 = None /\ findEdgeTo (nst demo_graph 0) 1 <> None.
Proof. split; [exact demo_reachable|]. vm_compute. repeat split; discriminate. Qed.

(** C04. removeEdge removes exactly one edge object, the same one from both lists,
    preserves the order of all others, and reports whether there was one. *)
Theorem c04_removeEdge_exact : forall g a b,
  reachable outEdgeIndexThreshold g -> hasNode g a = true -> hasNode g b = true ->
  exists g' ok, g_removeEdge g a b = Some (g', ok) /\
    ok = (match findEdgeTo (nst g a) b with Some _ => true | None => false end) /\
    gnodes g' = gnodes g /\
    outs (nst g' a) = remove_first (to b) (outs (nst g a)) /\
    ins (nst g' b) = remove_first (from a) (ins (nst g b)) /\
    find (to b) (outs (nst g a)) = find (from a) (ins (nst g b)) /\
    (forall x, x <> a -> outs (nst g' x) = outs (nst g x)) /\
    (forall x, x <> b -> ins (nst g' x) = ins (nst g x)).
Proof. exact (c04 outEdgeIndexThreshold). Qed.
Print Assumptions c04_removeEdge_exact.
Example c04_nonvacuous :
  reachable outEdgeIndexThreshold demo_graph /\ hasNode demo_graph 0 = true /\
  hasNode demo_graph 1 = true /\ findEdgeTo (nst demo_graph 0) 1 <> None.
Proof. split; [exact demo_reachable|]. vm_compute. repeat split; discriminate. Qed.

(** C05. removeNode removes the node and exactly its incident edges. *)
Theorem c05_removeNode_exact : forall g n, reachable outEdgeIndexThreshold g ->
  exists g' ok, removeNode g n = Some (g', ok) /\ ok = memb n (gnodes g) /\
    (ok = false -> g' = g) /\
    (ok = true ->
      (forall x, In x (gnodes g') <-> In x (gnodes g) /\ x <> n) /\
      outs (nst g' n) = [] /\ ins (nst g' n) = [] /\
      (forall x, x <> n -> outs (nst g' x) = filter (fun e => negb (to n e)) (outs (nst g x))) /\
      (forall x, x <> n -> ins (nst g' x) = filter (fun e => negb (from n e)) (ins (nst g x))) /\
      numEdges g' + (outDegree g n + inDegree g n)
        = numEdges g + length (getEdgesTo (nst g n) n)).
Proof. exact (c05 outEdgeIndexThreshold). Qed.
Print Assumptions c05_removeNode_exact.
Example c05_nonvacuous :
  reachable outEdgeIndexThreshold demo_graph /\ memb 0 (gnodes demo_graph) = true /\
  memb 2 (gnodes demo_graph) = false /\
  length (getEdgesTo (nst demo_graph 0) 0) = 1 /\ outDegree demo_graph 0 = 18.
Proof. split; [exact demo_reachable|]. vm_compute. auto. Qed.

(** C05. numEdges equals the sum of out-degrees and of in-degrees. *)
Theorem c05_numEdges_sum : forall g, reachable outEdgeIndexThreshold g ->
  numEdges g = list_sum (map (outDegree g) (gnodes g)) /\
  numEdges g = list_sum (map (inDegree g) (gnodes g)).
Proof. exact (c05_sum outEdgeIndexThreshold). Qed.
Print Assumptions c05_numEdges_sum.
