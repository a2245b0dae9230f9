(** C08-C16: traversal, cones, paths and loops. *)
From Coq Require Import Sorting.Sorted.
From Verif Require Import Base M_Graph S_Graph P_Graph S_Reach M_Range M_Netlist S_Netlist
  M_DFS P_DFS M_Path P_Path M_Cycle S_Cycle P_Cycle.

(** ** A netlist used by the examples: a Port 0 feeding two nested loops
    1 -> 2 -> 1 and 2 -> 3 -> 2, a register 4 between 3 and 5, a loop 5 -> 0 closed
    only through the register, a disabled edge 5 -> 3, and parallel edges 0 -> 1. *)
Definition demo_att (d : bool) : eattr := EAttr EKNone None (Range 0%Z 0%Z) d.
Definition demo_node (i : nat) (k : kind) : ninfo := NInfo (10 - i) k None None.
Definition demo_nl : netlist :=
  mk_netlist [demo_node 0 KPort; demo_node 1 KAssignment; demo_node 2 KMerge;
              demo_node 3 KAssignment; demo_node 4 KState; demo_node 5 KAssignment]
    [((0, 1), demo_att false); ((0, 1), demo_att false); ((1, 2), demo_att false);
     ((2, 1), demo_att false); ((2, 3), demo_att false); ((3, 2), demo_att false);
     ((3, 4), demo_att false); ((4, 5), demo_att false); ((5, 0), demo_att false);
     ((5, 3), demo_att true)].
Example demo_WF : WF demo_nl.
Proof. apply mk_netlist_WF. Qed.
Example demo_ids : DistinctIDs demo_nl.
Proof.
  intros a b Ha Hb. vm_compute in Ha, Hb.
  repeat (destruct Ha as [<-|Ha]; [repeat (destruct Hb as [<-|Hb]; [vm_compute; congruence|]); destruct Hb|]).
  destruct Ha.
Qed.
Example demo_live : In 0 (gnodes (ng demo_nl)) /\ In 3 (gnodes (ng demo_nl)) /\ In 5 (gnodes (ng demo_nl)).
Proof. vm_compute. tauto. Qed.

(** ** C08. Depth-first search. [Arc succs nxt pred] is the relation of accepted
    edges; forward and backward searches are the instances used below. *)
Theorem c08_dfs_exact : forall succs nxt pred V s,
  NoDup V -> In s V ->
  (forall v e, In v V -> In e (succs v) -> pred e = true -> In (nxt e) V) ->
  exists tr, dfs succs nxt pred (dfs_fuel succs V) s = Some tr /\
    NoDup (ev_nodes tr) /\
    hd_error (ev_nodes tr) = Some s /\
    (forall v, In v (ev_nodes tr) <-> Reach (Arc succs nxt pred) s v) /\
    map nxt (ev_edges tr) = tl (ev_nodes tr) /\
    ev_pops tr = length (ev_nodes tr) /\
    (forall l1 e l2, ev_edges tr = l1 ++ e :: l2 -> pred e = true /\
       exists p, In e (succs p) /\ In p (firstn (S (length l1)) (ev_nodes tr))).
Proof. exact c08_dfs. Qed.
Print Assumptions c08_dfs_exact.

(** Fuel is only a device of the model: any run that ends gives this answer, and a
    search of a live node of a well-formed netlist always ends. *)
Theorem c08_dfs_total : forall nl pred s, WF nl -> In s (gnodes (ng nl)) ->
  (exists tr, dfs_fwd nl pred s = Some tr /\
     forall v, In v (ev_nodes tr) <-> Reach (Arc (nouts nl) etgt pred) s v) /\
  (exists tr, dfs_bwd nl pred s = Some tr /\
     forall v, In v (ev_nodes tr) <-> Reach (Arc (nins nl) esrc pred) s v).
Proof. exact c08_total. Qed.
Print Assumptions c08_dfs_total.
Example c08_nonvacuous :
  option_map ev_nodes (dfs_fwd demo_nl (pred_enabled demo_nl) 0) = Some [0; 1; 2; 3; 4; 5] /\
  option_map ev_nodes (dfs_bwd demo_nl (pred_enabled demo_nl) 1) = Some [1; 0; 5; 4; 3; 2].
Proof. split; vm_compute; reflexivity. Qed.

(** ** C09. Combinational cones. *)
Theorem c09_fanOut_exact : forall nl n, WF nl -> In n (gnodes (ng nl)) ->
  exists l, getCombFanOut nl n = Some l /\ NoDup l /\ hd_error l = Some n /\
    forall m, In m l <-> Reach (Comb nl) n m.
Proof. exact fanOut_spec. Qed.
Print Assumptions c09_fanOut_exact.
Theorem c09_fanIn_exact : forall nl n, WF nl -> In n (gnodes (ng nl)) ->
  exists l, getCombFanIn nl n = Some l /\ NoDup l /\ hd_error l = Some n /\
    forall m, In m l <-> Reach (CombBack nl) n m.
Proof. exact fanIn_spec. Qed.
Print Assumptions c09_fanIn_exact.
Example c09_nonvacuous :
  getCombFanOut demo_nl 4 = Some [4; 5; 0; 1; 2; 3] /\ getCombFanIn demo_nl 4 = Some [4; 3; 2; 1; 0; 5].
Proof. split; vm_compute; reflexivity. Qed.

(** ** C10. Duality of the cones; with registers at the ends, the exact relation. *)
Theorem c10_duality : forall nl a b lo li, WF nl ->
  In a (gnodes (ng nl)) -> In b (gnodes (ng nl)) ->
  nkind (ninf nl a) <> KState -> nkind (ninf nl b) <> KState ->
  getCombFanOut nl a = Some lo -> getCombFanIn nl b = Some li ->
  (In b lo <-> In a li).
Proof. exact c10_dual. Qed.
Print Assumptions c10_duality.
Theorem c10_state_ends : forall nl a b lo li, WF nl ->
  In a (gnodes (ng nl)) -> In b (gnodes (ng nl)) -> a <> b ->
  getCombFanOut nl a = Some lo -> getCombFanIn nl b = Some li ->
  (In b lo <-> nkind (ninf nl b) <> KState /\ CombLink nl a b) /\
  (In a li <-> nkind (ninf nl a) <> KState /\ CombLink nl a b).
Proof. exact c10_exact. Qed.
Print Assumptions c10_state_ends.
(** The hypotheses are met, and duality really fails at a register. *)
Example c10_nonvacuous :
  (exists lo li, getCombFanOut demo_nl 0 = Some lo /\ getCombFanIn demo_nl 3 = Some li /\
     In 3 lo /\ In 0 li) /\
  (exists lo li, getCombFanOut demo_nl 3 = Some lo /\ getCombFanIn demo_nl 4 = Some li /\
     ~ In 4 lo /\ In 3 li).
Proof.
  split; eexists; eexists; (split; [vm_compute; reflexivity|]); (split; [vm_compute; reflexivity|]);
    vm_compute; intuition congruence.
Qed.

(** ** C11. Reported paths are real, simple, and the parent walk never fails. *)
Theorem c11_path_real : forall nl s e, WF nl -> In s (gnodes (ng nl)) -> In e (gnodes (ng nl)) ->
  exists p, pf_find nl s e = PPath p /\
    (p <> [] -> hd_error p = Some s /\ last p s = e /\ NoDup p /\ Walk (Conn nl) p).
Proof. exact c11. Qed.
Print Assumptions c11_path_real.
Example c11_nonvacuous : pf_find demo_nl 0 5 = PPath [0; 1; 2; 3; 4; 5].
Proof. vm_compute. reflexivity. Qed.

(** ** C12. A path is found exactly when one exists, for distinct end points; for a
    node on a cycle the query with equal end points comes back empty. *)
Theorem c12_path_complete_partial : forall nl s e, WF nl ->
  In s (gnodes (ng nl)) -> In e (gnodes (ng nl)) -> s <> e ->
  exists p, pf_find nl s e = PPath p /\ (p <> [] <-> Reach1 (Conn nl) s e).
Proof. exact c12. Qed.
Print Assumptions c12_path_complete_partial.
(** The full statement drops [s <> e].  It is false: *)
Theorem c12_path_complete_refuted : ~ (forall nl s e, WF nl ->
  In s (gnodes (ng nl)) -> In e (gnodes (ng nl)) ->
  exists p, pf_find nl s e = PPath p /\ (p <> [] <-> Reach1 (Conn nl) s e)).
Proof.
  intros H. destruct (H demo_nl 1 1 demo_WF) as (p & E & Hp); [vm_compute; tauto|vm_compute; tauto|].
  vm_compute in E. injection E as <-. apply (proj2 Hp); [|reflexivity].
  exists 2. split; [|apply reach_one]; apply conn_b; vm_compute; reflexivity.
Qed.
Print Assumptions c12_path_complete_refuted.
(** In fact it is empty for every node, whether on a cycle or not. *)
Theorem c12_self_path_empty : forall nl s, WF nl -> In s (gnodes (ng nl)) -> pf_find nl s s = PPath [].
Proof. exact (fun nl => path_with_self nl (pred_enabled nl)). Qed.
Print Assumptions c12_self_path_empty.
(** buildPath has a case for it (lines 54-56), which no search reaches: the start of a search
    has no parent. *)
Theorem c12_build_self : forall m s, tm_find m s <> None -> buildPath m s s = PPath [s].
Proof. intros m s H. unfold buildPath. destruct (tm_find m s); [|congruence]. now rewrite Nat.eqb_refl. Qed.
Print Assumptions c12_build_self.
Example c12_build_self_ex : buildPath [(1, 0); (0, 1)] 1 1 = PPath [1] /\ buildPath [(1, 0)] 0 0 = PPath [].
Proof. split; reflexivity. Qed.

(** ** C13. Combinational paths. *)
Theorem c13_comb_path : forall nl s e, WF nl -> In s (gnodes (ng nl)) -> In e (gnodes (ng nl)) ->
  exists p, pf_findComb nl s e = PPath p /\
    (p <> [] -> hd_error p = Some s /\ last p s = e /\ NoDup p /\ Walk (Conn nl) p /\
                forall x, In x (tl p) -> nkind (ninf nl x) <> KState) /\
    (p <> [] <-> s <> e /\ Reach (Comb nl) s e).
Proof. exact c13. Qed.
Print Assumptions c13_comb_path.
Example c13_nonvacuous :
  pf_findComb demo_nl 4 3 = PPath [4; 5; 0; 1; 2; 3] /\ pf_findComb demo_nl 0 5 = PPath [].
Proof. split; vm_compute; reflexivity. Qed.

(** ** C14. Reported loops are genuine, canonical, distinct also up to rotation, and
    sorted. *)
Theorem c14_loops_sound : forall nl, WF nl -> DistinctIDs nl ->
  exists ls, getAllLoops nl = Some ls /\
  (forall c, In c ls -> SimpleCycle (Comb nl) c /\ Canonical (fun m => nid (ninf nl m)) c) /\
  (forall a b c, In c ls -> c = a ++ b -> In (b ++ a) ls -> b ++ a = c) /\
  NoDup ls /\
  StronglySorted (fun a b => LexLt (map (fun m => nid (ninf nl m)) a)
                                   (map (fun m => nid (ninf nl m)) b)) ls.
Proof. exact c14. Qed.
Print Assumptions c14_loops_sound.
(** IDs in the example run opposite to node numbers, so 3 and 2 lead. *)
Example c14_nonvacuous : getAllLoops demo_nl = Some [[3; 2]; [2; 1]].
Proof. vm_compute. reflexivity. Qed.

(** ** C15. No combinational cycle goes unnoticed. *)
Theorem c15_loops_complete : forall nl, WF nl -> exists ls, getAllLoops nl = Some ls /\
  (ls = [] <-> ~ exists n, Reach1 (Comb nl) n n) /\
  (forall n, Reach1 (Comb nl) n n <-> exists c, In c ls /\ In n c).
Proof. exact c15. Qed.
Print Assumptions c15_loops_complete.
Example c15_nonvacuous : Reach1 (Comb demo_nl) 3 3.
Proof.
  exists 2. split; [|apply reach_one]; (split; [apply conn_b; vm_compute; reflexivity|vm_compute; discriminate]).
Qed.

(** ** C16. Not every elementary cycle is reported.  The graph has the two loops
    0 -> 1 -> 2 -> 0 and 0 -> 2 -> 0; only one is found, because 2 has already been
    visited (through 1) when the edge 0 -> 2 is examined. *)
Definition two_loops : netlist :=
  mk_netlist [NInfo 0 KAssignment None None; NInfo 1 KAssignment None None; NInfo 2 KAssignment None None]
    [((0, 1), demo_att false); ((1, 2), demo_att false); ((2, 0), demo_att false); ((0, 2), demo_att false)].
Theorem c16_all_loops_refuted : ~ (forall nl ls c, WF nl -> DistinctIDs nl ->
  getAllLoops nl = Some ls -> SimpleCycle (Comb nl) c ->
  exists a b, c = a ++ b /\ In (b ++ a) ls).
Proof.
  intros H. destruct (H two_loops [[0; 1; 2]] [0; 2]) as (a & b & E & Hin).
  - apply mk_netlist_WF.
  - intros a b Ha Hb. vm_compute in Ha, Hb.
    repeat (destruct Ha as [<-|Ha]; [repeat (destruct Hb as [<-|Hb]; [vm_compute; congruence|]); destruct Hb|]).
    destruct Ha.
  - vm_compute. reflexivity.
  - exists 0, [2]. split; [reflexivity|]. split; [repeat constructor; simpl; intuition congruence|].
    split; [split; [|exact I]|]; (split; [apply conn_b; vm_compute; reflexivity|vm_compute; discriminate]).
  - apply (f_equal (@length nat)) in E. rewrite app_length in E. simpl in E.
    destruct Hin as [Hin|[]]. apply (f_equal (@length nat)) in Hin. rewrite app_length in Hin. simpl in Hin. lia.
Qed.
Print Assumptions c16_all_loops_refuted.
