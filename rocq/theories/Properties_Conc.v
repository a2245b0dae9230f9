(** C06, C07: concurrent edge insertion. *)
From Verif Require Import Base M_Graph S_Graph P_Graph M_Conc S_Conc P_Conc P_Lin.
From Coq Require Import Permutation.

Definition thr : nat := outEdgeIndexThreshold.
Definition two_nodes : graph :=
  match run thr empty_graph [OAddNode; OAddNode] with Some (g, _) => g | None => empty_graph end.
Lemma two_nodes_reachable : reachable thr two_nodes.
Proof. exists [OAddNode; OAddNode]. eexists. vm_compute. reflexivity. Qed.

(** C06, full statement: no reachable interleaving of addEdge calls is stuck. False:
    the source mutex is held while the target mutex is taken, so A->B and B->A on two
    threads lock in opposite order. The witness keeps to the discipline of
    resolveParallel (PendingRvalueQueue.cpp 108-164): each target node belongs to one
    thread. *)
Definition cross_progs : list (list call) := [[CAdd 0 1]; [CAdd 1 0]].
Theorem c06_deadlock_refuted :
  ~ (forall g progs sched s, reachable thr g -> Valid g progs -> all_add progs ->
       exec thr sched (cinit g progs) = Some s -> ~ Deadlocked thr s).
Proof.
  intros H.
  destruct (exec thr [0; 0; 0; 1; 1; 1] (cinit two_nodes cross_progs)) as [s|] eqn:E; [|vm_compute in E; discriminate].
  apply (H two_nodes cross_progs [0; 0; 0; 1; 1; 1] s two_nodes_reachable); [| |exact E|].
  - intros p c [<-|[<-|[]]] [<-|[]]; split; reflexivity.
  - intros p c [<-|[<-|[]]] [<-|[]]; eauto.
  - vm_compute in E. injection E as <-. split.
    + intros F. specialize (F 0). discriminate F.
    + intros t. destruct t as [|[|t]]; [vm_compute; reflexivity|vm_compute; reflexivity|].
      destruct t; vm_compute; reflexivity.
Qed.
Print Assumptions c06_deadlock_refuted.
Example c06_deadlock_one_thread_per_target :
  exists own, forall t c, In c (nth t cross_progs []) -> own (c_tgt c) = t.
Proof.
  exists (fun b => match b with 1 => 0 | _ => 1 end). intros [|[|t]] c H.
  - destruct H as [<-|[]]. reflexivity.
  - destruct H as [<-|[]]. reflexivity.
  - destruct t; destruct H.
Qed.

(** C06, what holds: if the addEdge calls respect some ranking of the nodes (for
    instance the graph being built is acyclic) no interleaving is stuck and every
    interleaving ends within seven steps per call; addNewEdge needs no ranking. *)
Theorem c06_no_deadlock_partial : forall rank g progs sched s,
  Ranked rank progs -> exec thr sched (cinit g progs) = Some s ->
  ~ Deadlocked thr s /\ length sched <= 7 * length (concat progs).
Proof. exact (c06 thr). Qed.
Print Assumptions c06_no_deadlock_partial.
Theorem c06_completes_partial : forall rank g progs sched s,
  Ranked rank progs -> exec thr sched (cinit g progs) = Some s ->
  exists sched' s', exec thr (sched ++ sched') (cinit g progs) = Some s' /\ Finished s'.
Proof. exact (c06_complete thr). Qed.
Print Assumptions c06_completes_partial.
(** addNewEdge alone never deadlocks, whatever the pairs. *)
Theorem c06_addNewEdge_never_deadlocks : forall g progs sched s,
  (forall p c, In p progs -> In c p -> exists a b, c = CNew a b) ->
  exec thr sched (cinit g progs) = Some s -> ~ Deadlocked thr s.
Proof.
  intros g progs sched s H E. apply (c06 thr (fun _ => 0) g progs sched s); [|exact E].
  intros p a b Hp Hc. destruct (H p _ Hp Hc) as (x & y & D). discriminate D.
Qed.
Print Assumptions c06_addNewEdge_never_deadlocks.
Example c06_ranked_nonvacuous :
  Ranked (fun n => n) [[CAdd 0 1; CNew 1 0]; [CAdd 0 1; CAdd 1 1]] /\
  exists s, exec thr [0;0;0;1;1;1;0] (cinit two_nodes [[CAdd 0 1]; [CNew 1 0]]) = Some s.
Proof.
  split.
  - intros p a b [<-|[<-|[]]] [H|[H|[]]]; try discriminate H; injection H as <- <-; lia.
  - eexists. vm_compute. reflexivity.
Qed.

(** C07. A finished run of concurrent addEdge/addNewEdge calls gives every caller the
    result it would get in some one-at-a-time history containing exactly the calls of
    every thread in program order; out-lists and index agree with that history, and
    in-lists agree up to order. *)
Theorem c07_linearizable : forall g0 progs sched s, Valid g0 progs ->
  exec thr sched (cinit g0 progs) = Some s -> Finished s ->
  exists h G,
    (forall t, map h_call (h_of h t) = nth t progs [] /\ map snd (h_of h t) = rets (th s t)) /\
    run thr g0 (map (fun x => call_op (h_call x)) h) = Some (G, map (fun x => REdge (snd x)) h) /\
    gnodes (cg s) = gnodes G /\
    (forall n, outs (nst (cg s) n) = outs (nst G n) /\ oidx (nst (cg s) n) = oidx (nst G n) /\
               Permutation (ins (nst (cg s) n)) (ins (nst G n))).
Proof. exact (c07 thr). Qed.
Print Assumptions c07_linearizable.
(** The history respects real time: at any moment of the run, the history so far is a
    prefix of the final one and contains every call already returned. *)
Theorem c07_real_time : forall g0 progs s1 s2 st1 st2, Valid g0 progs ->
  exec thr s1 (cinit g0 progs) = Some st1 -> exec thr s2 st1 = Some st2 ->
  exists h1 h2, Lin thr g0 progs st1 h1 /\ Lin thr g0 progs st2 (h1 ++ h2) /\
    forall t, exists o, map snd (h_of h1 t) = rets (th st1 t) ++ o /\ length o <= 1.
Proof. exact (c07_realtime thr). Qed.
Print Assumptions c07_real_time.
(** Both ends hold the same edge objects, once each, on live nodes. *)
Theorem c07_ends_agree : forall g0 progs sched s, reachable thr g0 -> Valid g0 progs ->
  exec thr sched (cinit g0 progs) = Some s -> Finished s ->
  forall a b, Permutation (filter (to b) (outs (nst (cg s) a))) (filter (from a) (ins (nst (cg s) b))) /\
    NoDup (outs (nst (cg s) a)) /\ NoDup (ins (nst (cg s) b)) /\
    (forall e, In e (outs (nst (cg s) a)) -> esrc e = a /\ In (etgt e) (gnodes (cg s)) /\ In e (ins (nst (cg s) (etgt e)))) /\
    (forall e, In e (ins (nst (cg s) b)) -> etgt e = b /\ In (esrc e) (gnodes (cg s)) /\ In e (outs (nst (cg s) (esrc e)))).
Proof. exact (c07_ends thr). Qed.
Print Assumptions c07_ends_agree.
(** When addNewEdge is not used: at most one edge per pair, and it is the one every
    caller for the pair received. *)
Theorem c07_addEdge_unique : forall os0 g0 rs0 progs sched s,
  forallb no_new os0 = true -> run thr empty_graph os0 = Some (g0, rs0) -> all_add progs ->
  Valid g0 progs -> exec thr sched (cinit g0 progs) = Some s -> Finished s ->
  (forall a b, length (filter (to b) (outs (nst (cg s) a))) <= 1) /\
  (forall t i c e, nth_error (nth t progs []) i = Some c -> nth_error (rets (th s t)) i = Some e ->
     filter (to (c_tgt c)) (outs (nst (cg s) (c_src c))) = [e]).
Proof. exact (c07_unique thr). Qed.
Print Assumptions c07_addEdge_unique.

(** The last clause - a later removeEdge removes the same object from both ends - is
    false: two threads adding parallel edges to one pair can file them in opposite
    orders at the two ends. *)
Definition twin_progs : list (list call) := [[CNew 0 1]; [CNew 0 1]].
Definition twin_sched : list nat := [0;0;0; 1;1;1;1;1;1; 0;0;0].
Theorem c07_removeEdge_same_object_refuted :
  ~ (forall g0 progs sched s g', reachable thr g0 -> Valid g0 progs ->
       exec thr sched (cinit g0 progs) = Some s -> Finished s ->
       node_removeEdge (cg s) 0 1 = Some (g', true) ->
       forall e, In e (outs (nst g' 0)) -> In e (ins (nst g' (etgt e)))).
Proof.
  intros H.
  destruct (exec thr twin_sched (cinit two_nodes twin_progs)) as [s|] eqn:E; [|vm_compute in E; discriminate].
  destruct (node_removeEdge (cg s) 0 1) as [[g' b]|] eqn:R.
  2:{ vm_compute in E. injection E as <-. vm_compute in R. discriminate. }
  assert (B : b = true) by (vm_compute in E; injection E as <-; vm_compute in R; congruence). subst b.
  specialize (H two_nodes twin_progs twin_sched s g' two_nodes_reachable).
  assert (K : In (Edge 1 0 1) (ins (nst g' 1))).
  { refine (H _ _ _ _ (Edge 1 0 1) _).
    - intros p c [<-|[<-|[]]] [<-|[]]; split; reflexivity.
    - exact E.
    - vm_compute in E. injection E as <-. intros [|[|[|t]]]; vm_compute; reflexivity.
    - exact R.
    - vm_compute in E. injection E as <-. vm_compute in R. injection R as <-. vm_compute. auto. }
  vm_compute in E. injection E as <-. vm_compute in R. injection R as <-. vm_compute in K.
  destruct K as [K|[]]. discriminate K.
Qed.
Print Assumptions c07_removeEdge_same_object_refuted.
(** It holds when each ordered pair has a single writing thread (as when rvalues are
    partitioned by target node): the two ends list parallel edges in the same order. *)
Theorem c07_parallel_order_partial : forall own g0 progs sched s, reachable thr g0 -> Owned own progs ->
  exec thr sched (cinit g0 progs) = Some s -> Finished s ->
  forall a b, filter (to b) (outs (nst (cg s) a)) = filter (from a) (ins (nst (cg s) b)).
Proof. exact (c07_order thr). Qed.
Print Assumptions c07_parallel_order_partial.

(** A finished run with contention on the pair, both threads receiving one edge. *)
Example c07_nonvacuous :
  match exec thr [0;0;0;0;0;0;0;1;1;1] (cinit two_nodes [[CAdd 0 1]; [CAdd 0 1]]) with
  | Some s => rets (th s 0) = [Edge 0 0 1] /\ rets (th s 1) = [Edge 0 0 1] /\
              todo (th s 0) = [] /\ todo (th s 1) = []
  | None => False
  end.
Proof. vm_compute. auto. Qed.
