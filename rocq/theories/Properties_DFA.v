(** Properties C48-C50 and C70-C75: the data-flow analysis of procedural blocks. *)
From Coq Require Import String.
From Verif Require Import Base M_Graph M_Range M_Netlist M_Annot M_Interval M_Heap M_Drivers M_Pending
  M_DFA S_Interval S_Drivers S_DFA P_Interval P_Heap P_Drivers P_DriversX P_DFA P_DFA2 P_DFA3 P_DFA4
  P_DFA5 P_DFA6 P_DFA7.
Notation length := List.length.
Local Open Scope Z_scope.

(** Helpers of the witnesses. *)
Definition nm0 (n : nat) : str := match n with 0%nat => lit "x" | 1%nat => lit "y" | _ => lit "z" end.
Definition noauto (n : nat) : bool := false.
Definition one (l : nat) (bl : bool) (sy : nat) (lo hi : Z) (rhs : list rsrc) : stmt :=
  SAligned l bl [Seg [(sy, Range lo hi)] rhs].
Definition run (p : stmt) : dres st := run_block nm0 noauto None 3 p.
Ltac conc := unfold is_kind in *; repeat match goal with
  | H : exists _, _ |- _ => destruct H
  | H : _ /\ _ |- _ => destruct H
  | H : In _ _ |- _ => vm_compute in H
  | H : _ \/ _ |- _ => destruct H
  | H : False |- _ => destruct H
  | H : (_, _) = (_, _) |- _ => injection H; clear H; intros; subst
  | H : DDep _ _ _ _ _ = DDep _ _ _ _ _ |- _ => injection H; clear H; intros; subst
  | H : Some _ = Some _ |- _ => injection H; clear H; intros; subst
  | H : KAssign _ = KAssign _ |- _ => injection H; clear H; intros; subst
  | H : _ = _ |- _ => discriminate H
  | H : ?x = _ |- _ => is_var x; subst x
  | H : _ = ?x |- _ => is_var x; subst x
  end.

(** * C48: a read is served bit by bit: an edge from the node that defined the bit, or an
    entry in the pending queue.

    False.  A definition that straddles an end of the read is dropped: after
    [x[3:0] = ..] the read [x[5:2]] gets no edge and queues only bits 5:4. *)
Theorem c48_dropped_refuted : exists s,
  run (SSeq (one 1 true 0 0 3 []) (one 2 true 1 0 3 [RLsp (0%nat, Range 2 5)])) = DOk s /\
  driver_label s 0 2 1 /\ (forall k name b, ~ edge_for (fxs s) 1 k name b) /\ (forall k, ~ pending_for (fxs s) k 0 2).
Proof.
  eexists. split; [vm_compute; reflexivity|]. split; [|split].
  - exists 3%nat. split; [|vm_compute; auto]. exists (IV 0 3 0%nat), [3%nat]. vm_compute. intuition discriminate.
  - intros k name b (n & m & I & _). vm_compute in I. tauto.
  - intros k (x & m & I & _ & _ & _ & B). vm_compute in I. destruct I as [<-|[]]. vm_compute in B. destruct B as [B _]. now apply B.
Qed.
Print Assumptions c48_dropped_refuted.

(** False also for "none is handled twice": after [x[2:0] = ..; x[3] = ..] the read [x[3:0]]
    gets both edges, and bit 3 is queued as well. *)
Theorem c48_twice_refuted : exists s,
  run (SSeq (SSeq (one 1 true 0 0 2 []) (one 2 true 0 3 3 [])) (one 3 true 1 0 3 [RLsp (0%nat, Range 0 3)])) = DOk s /\
  driver_label s 0 3 2 /\ edge_for (fxs s) 2 (KAssign 3) (lit "x") (Range 0 3) /\ pending_for (fxs s) (KAssign 3) 0 3.
Proof.
  eexists. split; [vm_compute; reflexivity|]. split; [|split].
  - exists 4%nat. split; [|vm_compute; auto]. exists (IV 3 3 1%nat), [4%nat]. vm_compute. intuition discriminate.
  - exists 4%nat, 5%nat. vm_compute. auto 6.
  - exists (Pend 0%nat (lit "x") (Range 3 3) (Some 5%nat) EKNone), 5%nat. vm_compute. intuition discriminate.
Qed.
Print Assumptions c48_twice_refuted.

(** What holds, for any state built from driver writes whose entries are intact: every
    undefined bit is queued; whatever is queued is undefined or the highest bit read;
    every edge comes from a driver of a bit read; and every driver gets its edge if no
    definition straddles an end of the read. *)
Theorem c48_accounted_partial : forall nm external h a f m c r sy b,
  track_all (AS [] (Some m) c r) h = DOk a -> (forall x, ~ dangling (defs a x)) ->
  exists s' ds ps, handleRvalue nm external (ST a f) sy b = DOk s' /\
    cur s' = a /\ fdeps (fxs s') = fdeps f ++ ds /\ fpend (fxs s') = fpend f ++ ps /\
    (forall i, bit b i -> (forall n, ~ driven_by a sy i n) -> (forall x, In x (ivs (defs a sy)) -> get (lists (defs a sy)) (ival x) <> Some []) ->
       exists x, In x ps /\ psym x = sy /\ bit (pbounds x) i) /\
    (forall x i, In x ps -> bit (pbounds x) i ->
       psym x = sy /\ pnode x = Some m /\ bit b i /\ ((forall n, ~ driven_by a sy i n) \/ i = upper b)) /\
    (forall e, In e ds -> exists n i, e = DDep n m (Some (nm sy)) b EKNone /\ bit b i /\ driven_by a sy i n) /\
    ((forall x, In x (ivs (defs a sy)) -> ilo x <= upper b -> lower b <= ihi x ->
        (ilo x <= lower b /\ upper b <= ihi x) \/ (lower b <= ilo x /\ ihi x <= upper b)) ->
     forall i n, bit b i -> driven_by a sy i n -> In (DDep n m (Some (nm sy)) b EKNone) ds).
Proof.
  intros nm external h a f m c r sy b E D.
  pose proof (track_all_okG _ _ _ _ _ E D) as O. destruct (track_all_keep _ _ _ E) as (En & _ & _). cbn in En.
  destruct (O sy) as [K V].
  destruct (handleRvalue_node nm external (ST a f) sy b m En K V) as (s' & ds & ps & Eh & [R1 R2] & S).
  cbn [cur fxs] in *. exists s', ds, ps. split; [exact Eh|]. split; [exact R1|].
  split; [now rewrite R2|]. split; [now rewrite R2|]. split; [|split; [|split]].
  - intros i Bi N Ne. apply (rds_pcomplete _ _ _ _ _ _ S sy b i); auto; [now left|].
    intros C. apply covers_has in C; auto. destruct C as (n & H). apply (N n). now apply driven_has.
  - intros x i I Bx. destruct (rds_psound _ _ _ _ _ _ S x I) as (Q & b' & J & H).
    destruct J as [J|[]]. injection J as Es <-. rewrite <- Es in H.
    destruct (H i Bx) as [Bi Hc]. split; [congruence|]. split; [exact Q|]. split; [exact Bi|].
    destruct Hc as [Hc|Hc]; [left|now right]. intros n Hn. apply Hc. apply driven_has in Hn.
    destruct Hn as (y & l & Iy & Cy & _). exists y. auto.
  - intros e I. destruct (rds_sound _ _ _ _ _ _ S e I) as (sy' & b' & n & i & -> & J & Bi & H).
    destruct J as [J|[]]. injection J as <- <-. exists n, i. split; [reflexivity|]. split; [exact Bi|]. now apply driven_has.
  - intros F i n Bi H. apply (rds_complete _ _ _ _ _ _ S sy b i n); [now left|exact F|exact Bi|]. now apply driven_has.
Qed.
Print Assumptions c48_accounted_partial.

Example c48_ex : exists s,
  run (SSeq (one 1 true 0 4 7 []) (one 2 true 1 0 7 [RLsp (0%nat, Range 0 7)])) = DOk s /\
  fdeps (fxs s) = [DDep 3 4 (Some (lit "x")) (Range 0 7) EKNone] /\
  fpend (fxs s) = [Pend 0%nat (lit "x") (Range 0 3) (Some 4%nat) EKNone].
Proof. eexists. vm_compute. repeat split. Qed.

(** * C49: the join of two branches has the drivers of both, bit by bit, and a node that
    merges the nodes of both (or is the common node).

    False.  With one common node the join has no node at all. *)
Theorem c49_common_node_refuted : forall a f n, anode a = Some n -> adefs a = [] ->
  exists s, joinState (ST a f) a = DOk s /\ anode (cur s) = None.
Proof.
  intros [d no c r] f n. cbn. intros -> ->. unfold joinState. cbn [cur areach]. rewrite Bool.eqb_reflx.
  unfold mergeStates. cbn [adefs cur merge_defs dbind anode mergeNodes with_cur fxs]. rewrite Nat.eqb_refl.
  match goal with |- context [mergeNodes ?s ?x ?y] => destruct (mergeNodes_total s x y) as (s' & z & -> & _) end.
  eexists. split; reflexivity.
Qed.
Print Assumptions c49_common_node_refuted.

(** False also for the drivers: with [x[3:2] = ..; x[9:4] = ..] in one branch and
    [x = ..] in the other the join says that the assignment to [x[9:4]] drives bit 0. *)
Theorem c49_spurious_refuted : exists s,
  run (SIfElse 0 None [] (SSeq (one 2 true 0 2 3 []) (one 3 true 0 4 9 [])) (one 1 true 0 0 9 [])) = DOk s /\
  driver_label s 0 0 3.
Proof.
  eexists. split; [vm_compute; reflexivity|].
  exists 5%nat. split; [|vm_compute; auto]. exists (IV 0 1 0%nat), [6%nat; 5%nat]. vm_compute. intuition discriminate.
Qed.
Print Assumptions c49_spurious_refuted.

(** What holds, for branch states with arbitrary histories of driver writes: neither branch
    loses a driver. *)
Theorem c49_join_keeps : forall f h1 h2 n1 n2 c1 c2 r a1 a2,
  track_all (AS [] n1 c1 r) h1 = DOk a1 -> track_all (AS [] n2 c2 r) h2 = DOk a2 ->
  (forall sy, ~ dangling (defs a1 sy)) -> (forall sy, ~ dangling (defs a2 sy)) ->
  exists s, joinState (ST a1 f) a2 = DOk s /\
    forall sy i n, driven_by a1 sy i n \/ driven_by a2 sy i n -> driven_by (cur s) sy i n.
Proof.
  intros f h1 h2 n1 n2 c1 c2 r a1 a2 E1 E2 D1 D2.
  destruct (join_keeps (ST a1 f) a2) as (s & E & _ & H).
  - eapply track_all_okG; eauto.
  - eapply track_all_okG; eauto.
  - cbn [cur]. destruct (track_all_keep _ _ _ E1) as (_ & _ & ->), (track_all_keep _ _ _ E2) as (_ & _ & ->). reflexivity.
  - exists s. split; [exact E|]. intros sy i n Q. apply driven_has, H. rewrite <- !driven_has. exact Q.
Qed.
Print Assumptions c49_join_keeps.

(** And if all writes to a symbol have equal or disjoint ranges, the join has exactly the
    drivers of both. *)
Theorem c49_join_union_partial : forall W f h1 h2 n1 n2 c1 c2 r, aligned_writes W ->
  (forall sy b dl m, In (sy, b, dl, m) (h1 ++ h2) -> (exists l, In (l, sy, b) W) /\ dl <> []) ->
  exists a1 a2 s, track_all (AS [] n1 c1 r) h1 = DOk a1 /\ track_all (AS [] n2 c2 r) h2 = DOk a2 /\
    joinState (ST a1 f) a2 = DOk s /\
    forall sy i n, driven_by (cur s) sy i n <-> driven_by a1 sy i n \/ driven_by a2 sy i n.
Proof.
  intros W f h1 h2 n1 n2 c1 c2 r A H.
  assert (O0 : forall n c, okA W (AS [] n c r)).
  { intros n c sy. unfold defs. cbn. destruct sy; apply okd_empty. }
  destruct (track_all_okA W A h1 (AS [] n1 c1 r)) as (a1 & E1 & O1); auto.
  { intros sy b dl m I. apply (H sy b dl m), in_or_app. auto. }
  destruct (track_all_okA W A h2 (AS [] n2 c2 r)) as (a2 & E2 & O2); auto.
  { intros sy b dl m I. apply (H sy b dl m), in_or_app. auto. }
  destruct (join_union W (ST a1 f) a2 A O1 O2) as (s & E & Hs).
  { cbn [cur]. destruct (track_all_keep _ _ _ E1) as (_ & _ & ->), (track_all_keep _ _ _ E2) as (_ & _ & ->). reflexivity. }
  exists a1, a2, s. split; [exact E1|]. split; [exact E2|]. split; [exact E|].
  intros sy i n. rewrite !driven_has. apply Hs.
Qed.
Print Assumptions c49_join_union_partial.

(** An unreachable branch contributes nothing. *)
Theorem c49_unreachable : forall a b f, areach a = true -> areach b = false ->
  (exists s, joinState (ST a f) b = DOk s /\ cur s = a /\ fxs s = f) /\
  (exists s, joinState (ST b f) a = DOk s /\ cur s = a /\ fxs s = f).
Proof.
  intros a b f Ha Hb. split; unfold joinState; cbn [cur]; rewrite Ha, Hb; cbn; eexists; repeat split.
Qed.
Print Assumptions c49_unreachable.

(** Different nodes are merged by a new node with an edge from each; a single node is
    kept. *)
Theorem c49_merge_node : forall a b f s, areach a = areach b -> joinState (ST a f) b = DOk s ->
  anode (cur s) = match anode a, anode b with
                  | Some p, Some q => if Nat.eqb p q then None else Some (fnext f)
                  | Some p, None => Some p
                  | None, y => y
                  end /\
  forall p q, anode a = Some p -> anode b = Some q -> p <> q ->
    is_kind (fxs s) (fnext f) KMerge /\
    In (DPlain p (fnext f)) (fdeps (fxs s)) /\ In (DPlain q (fnext f)) (fdeps (fxs s)).
Proof. intros a b f s. apply (join_node (ST a f) b s). Qed.
Print Assumptions c49_merge_node.

(** A meet (used by the flow analysis for states that must both hold) is unreachable if
    the other state is, and keeps the drivers of both otherwise. *)
Theorem c49_meet : forall a b f,
  (areach b = false -> exists s, meetState (ST a f) b = DOk s /\ areach (cur s) = false /\ fxs s = f) /\
  (areach a = true -> areach b = true -> meetState (ST a f) b = joinState (ST a f) b).
Proof.
  intros a b f. unfold meetState, joinState. cbn [cur]. split.
  - intros ->. cbn. eexists. repeat split.
  - intros -> ->. reflexivity.
Qed.
Print Assumptions c49_meet.

(** The four-way case of ConditionalTests.cpp 104-153: the nodes and edges of the golden
    output, and all four assignments drive [b]. *)
Example c49_ex : exists s,
  run (SCase 0 [(0%nat, Range 0 1)] (CCons [] (one 1 true 1 0 0 [RConst]) (CCons [] (one 2 true 1 0 0 [RConst])
        (CCons [] (one 3 true 1 0 0 [RConst]) (CCons [] (one 4 true 1 0 0 [RConst]) CFull))))) = DOk s /\
  fnodes (fxs s) = [(3, KCase 0); (4, KAssign 1); (5, KConst); (6, KAssign 2); (7, KConst); (8, KMerge);
                    (9, KAssign 3); (10, KConst); (11, KMerge); (12, KAssign 4); (13, KConst); (14, KMerge)]%nat /\
  fdeps (fxs s) = [DPlain 3 4; DPlain 5 4; DPlain 3 6; DPlain 7 6; DPlain 4 8; DPlain 6 8; DPlain 3 9; DPlain 10 9;
                   DPlain 8 11; DPlain 9 11; DPlain 3 12; DPlain 13 12; DPlain 11 14; DPlain 12 14] /\
  getDrivers (defs (cur s) 1) (Range 0 0) = DOk [4; 6; 9; 12]%nat.
Proof. eexists. vm_compute. repeat split. Qed.

(** * C50: in a straight-line block a read sees the last earlier blocking write of the
    bit and no non-blocking write; at the end the last write wins.

    False: the left-hand side is recorded before the right-hand side is read, so in
    [x = y; x = x + 1] the second assignment sees itself instead of the first. *)
Theorem c50_self_read_refuted : exists s,
  run (straight [(1, true, [(0%nat, Range 0 31)], [(1%nat, Range 0 31)]);
                 (2, true, [(0%nat, Range 0 31)], [(0%nat, Range 0 31)])]%nat) = DOk s /\
  edge_for (fxs s) 2 (KAssign 2) (lit "x") (Range 0 31) /\
  (forall k name b, ~ edge_for (fxs s) 1 k name b).
Proof.
  eexists. split; [vm_compute; reflexivity|]. split.
  - exists 4%nat, 4%nat. vm_compute. auto.
  - intros k name b (n & m & I & K & _). conc.
Qed.
Print Assumptions c50_self_read_refuted.

(** False also in that the analysis of a straight-line block may abort. *)
Theorem c50_aborts_refuted :
  run (straight [(1, true, [(0%nat, Range 0 9)], []); (2, true, [(0%nat, Range 4 5)], []);
                 (3, true, [(0%nat, Range 4 9)], []); (4, true, [(0%nat, Range 0 3)], [])]%nat) = DErr EHandle.
Proof. vm_compute. reflexivity. Qed.
Print Assumptions c50_aborts_refuted.

(** What holds for every straight-line block in which two writes to a symbol have equal or
    disjoint ranges and no blocking assignment reads what it writes: each bit read is
    served by the last blocking write before the reading assignment, and only by it; a
    bit without one is pending; and the last write wins, non-blocking ones coming after
    all blocking ones.  (An edge is missing when a write straddles an end of the read,
    and the highest bit may be pending without need; see C48.) *)
Theorem c50_straight_line_partial : forall nm automatic n0 ls,
  aligned_writes (blocking_writes ls ++ nonblocking_writes ls) ->
  (forall l lhs rhs, In (l, true, lhs, rhs) ls -> no_common (writes l lhs) rhs) ->
  exists s, run_block nm automatic None n0 (straight ls) = DOk s /\
    (forall pre l bl lhs rhs post sy b i, ls = pre ++ (l, bl, lhs, rhs) :: post -> In (sy, b) rhs -> bit b i ->
       match last_w (blocking_writes pre) sy i with
       | Some l' => sfree (blocking_writes ls ++ nonblocking_writes ls) sy b -> edge_for (fxs s) l' (KAssign l) (nm sy) b
       | None => pending_for (fxs s) (KAssign l) sy i
       end) /\
    (forall l' k name b, edge_for (fxs s) l' k name b -> exists pre l bl lhs rhs post sy i,
       ls = pre ++ (l, bl, lhs, rhs) :: post /\ k = KAssign l /\ In (sy, b) rhs /\ name = nm sy /\ bit b i /\
       last_w (blocking_writes pre) sy i = Some l') /\
    (forall k sy i, pending_for (fxs s) k sy i -> exists pre l bl lhs rhs post b,
       ls = pre ++ (l, bl, lhs, rhs) :: post /\ k = KAssign l /\ In (sy, b) rhs /\ bit b i /\
       (last_w (blocking_writes pre) sy i = None \/ i = upper b)) /\
    (forall sy i l, driver_label s sy i l <->
       match last_w (nonblocking_writes ls) sy i with
       | Some l' => l = l'
       | None => last_w (blocking_writes ls) sy i = Some l
       end).
Proof.
  intros nm automatic n0 ls A N.
  assert (A' : aligned_writes (all_writes (straight ls) ++ nb_writes automatic (straight ls))).
  { intros l sy b l' b' I J. apply straight_all in I. apply straight_all in J. exact (A l sy b l' b' I J). }
  destruct (block_lang nm automatic None n0 (straight ls) A' (straight_live ls) I (straight_no_self automatic ls N))
    as (s & Es & B & H1 & H2 & H3 & H4).
  exists s. split; [exact Es|]. split; [|split; [|split]].
  - intros pre l bl lhs rhs post sy b i E I Bi.
    assert (R : In ([blocking_writes pre], KAssign l, (sy, b)) (lreads automatic (straight ls))).
    { apply straight_reads. exists pre, l, bl, lhs, rhs, post. auto. }
    destruct (last_w (blocking_writes pre) sy i) as [l'|] eqn:El.
    + intros F. apply (H1 [blocking_writes pre] (KAssign l) sy b i l'); auto.
      * intros l0 b0 J. apply straight_all in J. exact (F l0 b0 J).
      * exists (blocking_writes pre). split; [now left|exact El].
    + apply (H3 [blocking_writes pre] (KAssign l) sy b i); auto; [discriminate|]. intros t [<-|[]]. exact El.
  - intros l' k name b H. destruct (H2 l' k name b H) as (T & sy & i & I & Q & Bi & (t & It & L)).
    apply straight_reads in I. destruct I as (pre & l & bl & lhs & rhs & post & -> & -> & -> & I).
    destruct It as [<-|[]]. exists pre, l, bl, lhs, rhs, post, sy, i. auto 8.
  - intros k sy i H. destruct (H4 k sy i H) as (T & b & I & Bi & P).
    apply straight_reads in I. destruct I as (pre & l & bl & lhs & rhs & post & -> & -> & -> & I).
    exists pre, l, bl, lhs, rhs, post, b. repeat (split; [auto|]). destruct P as [P|P]; [left|auto]. apply P. now left.
  - intros sy i l. rewrite (bs_drivers _ _ _ _ B). unfold drives_at_end. rewrite straight_nb, straight_paths.
    destruct (last_w (nonblocking_writes ls) sy i); [tauto|]. split.
    + intros (t & [<-|[]] & Q). exact Q.
    + intros Q. exists (blocking_writes ls). split; [now left|exact Q].
Qed.
Print Assumptions c50_straight_line_partial.

(** [x = y; z <= x; x <= z]: the second assignment sees the first, the third sees neither
    [z] nor [x] of this block; [x] ends up driven by the third. *)
Example c50_ex : exists s,
  run (straight [(1, true, [(0%nat, Range 0 0)], [(1%nat, Range 0 0)]);
                 (2, false, [(2%nat, Range 0 0)], [(0%nat, Range 0 0)]);
                 (3, false, [(0%nat, Range 0 0)], [(2%nat, Range 0 0)])]%nat) = DOk s /\
  fdeps (fxs s) = [DDep 3 4 (Some (lit "x")) (Range 0 0) EKNone] /\
  map psym (fpend (fxs s)) = [1; 2]%nat /\
  getDrivers (defs (cur s) 0) (Range 0 0) = DOk [5]%nat.
Proof. eexists. vm_compute. repeat split. Qed.

(** * C70: every statement in a branch depends on the branch's condition.

    False: only the first one does.  In [if (c) begin x = ..; y = ..; end] the assignment
    to [y] has no edge from the condition, direct or through other nodes of the branch. *)
Theorem c70_second_refuted : exists s,
  run (SIf 0 None [] (SSeq (one 1 true 0 0 0 []) (one 2 true 1 0 0 []))) = DOk s /\
  control_edge (fxs s) (KCond 0) (KAssign 1) /\ (forall k, ~ control_edge (fxs s) k (KAssign 2)) /\
  (forall l k name b, ~ edge_for (fxs s) l k name b).
Proof.
  eexists. split; [vm_compute; reflexivity|]. split; [|split].
  - exists 3%nat, 4%nat. vm_compute. auto.
  - intros k (n & m & I & _ & K). conc.
  - intros l k name b (n & m & I & _). conc.
Qed.
Print Assumptions c70_second_refuted.

(** And the condition leaks: in [if (c) x = ..; y = ..;] the assignment after the
    conditional has an edge from it. *)
Theorem c70_after_refuted : exists s,
  run (SSeq (SIf 0 None [] (one 1 true 0 0 0 [])) (one 2 true 1 0 0 [])) = DOk s /\
  control_edge (fxs s) (KCond 0) (KAssign 2).
Proof. eexists. split; [vm_compute; reflexivity|]. exists 3%nat, 6%nat. vm_compute. auto 8. Qed.
Print Assumptions c70_after_refuted.

(** What holds: every node of the first assignment of a branch has the edge, one node per
    segment. *)
Theorem c70_first_partial : forall nm automatic external s l c l' bl gs s',
  exec nm automatic external s (SIf l None c (SAligned l' bl gs)) = DOk s' ->
  exists n0 ids, is_kind (fxs s') n0 (KCond l) /\ length ids = length gs /\ NoDup ids /\
    forall n, In n ids -> is_kind (fxs s') n (KAssign l') /\ In (DPlain n0 n) (fdeps (fxs s')).
Proof. exact if_control. Qed.
Print Assumptions c70_first_partial.

Example c70_ex : exists s,
  run (SIf 0 None [(1%nat, Range 0 0)] (SAligned 1 true [Seg [(0%nat, Range 0 3)] []; Seg [(0%nat, Range 4 7)] []])) = DOk s /\
  fdeps (fxs s) = [DPlain 3 4; DPlain 3 5; DPlain 5 6; DPlain 3 6].
Proof. eexists. vm_compute. repeat split. Qed.

(** * C71: a read of a bit that some path has not written depends on the value from
    outside the block: it is queued.

    False: one write on one path is enough to keep the read from the queue.  In
    [if (c) x = ..; y = x;] the old value of [x] is forgotten. *)
Theorem c71_maybe_unwritten_refuted : exists p s T k sy b i t,
  live p = true /\ run p = DOk s /\ In (T, k, (sy, b)) (lreads noauto p) /\ bit b i /\
  In t T /\ last_w t sy i = None /\ ~ pending_for (fxs s) k sy i.
Proof.
  exists (SSeq (SIf 0 None [] (one 1 true 0 0 0 [])) (one 2 true 1 0 0 [RLsp (0%nat, Range 0 0)])).
  eexists. exists [[(1%nat, 0%nat, Range 0 0)]; []], (KAssign 2), 0%nat, (Range 0 0), 0, [].
  split; [reflexivity|]. split; [vm_compute; reflexivity|]. split; [vm_compute; auto|].
  split; [vm_compute; intuition discriminate|]. split; [now right; left|]. split; [reflexivity|].
  intros (x & m & I & _). conc.
Qed.
Print Assumptions c71_maybe_unwritten_refuted.

(** What holds: a bit that no path has written is queued. *)
Theorem c71_unwritten_partial : forall nm automatic n0 p,
  aligned_writes (all_writes p ++ nb_writes automatic p) -> live p = true -> no_self automatic p ->
  exists s, run_block nm automatic None n0 p = DOk s /\
    forall T k sy b i, In (T, k, (sy, b)) (lreads automatic p) -> T <> [] -> bit b i ->
      (forall t, In t T -> last_w t sy i = None) -> pending_for (fxs s) k sy i.
Proof.
  intros nm automatic n0 p A L N. destruct (block_lang nm automatic None n0 p A L I N) as (s & E & _ & _ & _ & H & _).
  exists s. auto.
Qed.
Print Assumptions c71_unwritten_partial.

(** * C72: each non-blocking write that is the last one on some path drives the bit at the
    end of the block.

    False: after [if (c) x <= ..; else x <= ..;] only the write that is last in the source
    drives [x].  This is the netlist of SequentialStateTests.cpp. *)
Theorem c72_branches_refuted : exists p s t sy i l,
  run p = DOk s /\ In t (npaths p) /\ last_w t sy i = Some l /\ ~ driver_label s sy i l.
Proof.
  exists (SIfElse 0 None [] (one 1 false 0 0 0 []) (one 2 false 0 0 0 [])).
  eexists. exists [(1%nat, 0%nat, Range 0 0)], 0%nat, 0, 1%nat. split; [vm_compute; reflexivity|].
  split; [vm_compute; auto|]. split; [reflexivity|]. intros (n & (x & l & Ix & _ & G & Il) & K).
  vm_compute in Ix. destruct Ix as [<-|[]]. vm_compute in G. injection G as <-. conc.
Qed.
Print Assumptions c72_branches_refuted.

(** What holds: a bit with non-blocking writes is driven by the one that is last in the
    source, and by it alone. *)
Theorem c72_last_partial : forall nm automatic n0 p,
  aligned_writes (all_writes p ++ nb_writes automatic p) -> live p = true ->
  exists s, run_block nm automatic None n0 p = DOk s /\
    forall sy i l', last_w (nb_writes automatic p) sy i = Some l' ->
      forall l, driver_label s sy i l <-> l = l'.
Proof.
  intros nm automatic n0 p A L. destruct (block_ok nm automatic None n0 p A L I) as (s & E & B). exists s. split; [exact E|].
  intros sy i l' H l. rewrite (bs_drivers _ _ _ _ B). unfold drives_at_end. rewrite H. tauto.
Qed.
Print Assumptions c72_last_partial.

(** [if (rst) b <= '0; else b <= a;], SequentialStateTests.cpp. *)
Example c72_ex : exists s,
  run_block nm0 noauto None 5 (SIfElse 0 None [(0%nat, Range 0 0)] (one 1 false 2 0 0 [RConst]) (one 2 false 2 0 0 [RLsp (1%nat, Range 0 0)])) = DOk s /\
  fnodes (fxs s) = [(5, KCond 0); (6, KAssign 1); (7, KConst); (8, KAssign 2); (9, KMerge)]%nat /\
  fdeps (fxs s) = [DPlain 5 6; DPlain 7 6; DPlain 5 8; DPlain 8 9; DPlain 6 9] /\
  getDrivers (defs (cur s) 2) (Range 0 0) = DOk [8]%nat.
Proof. eexists. vm_compute. repeat split. Qed.

(** * C73: for every block of assignments, sequences, conditionals and cases without
    constant conditions in which two writes to a symbol have equal or disjoint ranges and
    no blocking assignment reads what it writes: the analysis finishes, its edges are
    those of the reaching definitions over all paths, and the drivers at the end are the
    last writes over all paths. *)
Theorem c73_reaching_definitions : forall nm automatic external n0 p,
  aligned_writes (all_writes p ++ nb_writes automatic p) -> live p = true -> no_self automatic p ->
  match external with Some e => (e < n0)%nat | None => True end ->
  exists s, run_block nm automatic external n0 p = DOk s /\
    (* the drivers at the end *)
    (forall sy i l, driver_label s sy i l <-> drives_at_end automatic p sy i l) /\
    (forall sy i n, driven_by (cur s) sy i n -> exists l, is_kind (fxs s) n (KAssign l)) /\
    (* an edge for each definition that reaches a read, and no other *)
    (forall T k sy b i t l, In (T, k, (sy, b)) (lreads automatic p) ->
       (forall l' b', In (l', sy, b') (all_writes p ++ nb_writes automatic p) -> lower b' <= upper b -> lower b <= upper b' ->
          (lower b' <= lower b /\ upper b <= upper b') \/ (lower b <= lower b' /\ upper b' <= upper b)) ->
       bit b i -> In t T -> last_w t sy i = Some l -> edge_for (fxs s) l k (nm sy) b) /\
    (forall l k name b, edge_for (fxs s) l k name b -> exists T sy i t, In (T, k, (sy, b)) (lreads automatic p) /\
       name = nm sy /\ bit b i /\ In t T /\ last_w t sy i = Some l) /\
    (forall n m name b k, In (DDep n m name b k) (fdeps (fxs s)) -> k = EKNone /\ (exists x, name = Some x) /\
       (exists l, is_kind (fxs s) n (KAssign l)) /\ exists k', is_kind (fxs s) m k') /\
    (* the bits that no path has written are queued, and only they and highest bits *)
    (forall T k sy b i, In (T, k, (sy, b)) (lreads automatic p) -> T <> [] -> bit b i ->
       (forall t, In t T -> last_w t sy i = None) -> pending_for (fxs s) k sy i) /\
    (forall k sy i, pending_for (fxs s) k sy i -> exists T b, In (T, k, (sy, b)) (lreads automatic p) /\ bit b i /\
       ((forall t, In t T -> last_w t sy i = None) \/ i = upper b)) /\
    (forall x, In x (fpend (fxs s)) -> exists m k, pnode x = Some m /\ is_kind (fxs s) m k).
Proof.
  intros nm automatic external n0 p A L N E.
  destruct (block_lang nm automatic external n0 p A L E N) as (s & Es & B & H1 & H2 & H3 & H4).
  exists s. split; [exact Es|]. split; [apply (bs_drivers _ _ _ _ B)|]. split; [apply (bs_driver_nodes _ _ _ _ B)|].
  split; [|split; [|split; [|split; [|split]]]].
  - intros T k sy b i t l I F Bi It Q. apply (H1 T k sy b i l); auto. exists t. auto.
  - intros l k name b H. destruct (H2 l k name b H) as (T & sy & i & I & Q & Bi & (t & It & Lt)). exists T, sy, i, t. auto 6.
  - intros n m name b k I. destruct (proj1 (bs_labelled _ _ _ _ B) n m name b k I) as (Q1 & Q2 & Q3 & Q4). auto.
  - exact H3.
  - exact H4.
  - intros x I. exact (proj2 (bs_labelled _ _ _ _ B) x I).
Qed.
Print Assumptions c73_reaching_definitions.

(** [x = ..; if (c) x = ..; y = x;]: both definitions of [x] reach the read. *)
Example c73_ex : exists s,
  run (SSeq (one 1 true 0 0 3 []) (SSeq (SIf 2 None [(2%nat, Range 0 0)] (one 3 true 0 0 3 []))
        (one 4 true 1 0 3 [RLsp (0%nat, Range 0 3)]))) = DOk s /\
  edge_for (fxs s) 1 (KAssign 4) (lit "x") (Range 0 3) /\ edge_for (fxs s) 3 (KAssign 4) (lit "x") (Range 0 3) /\
  (forall k, ~ pending_for (fxs s) k 0 0).
Proof.
  eexists. split; [vm_compute; reflexivity|]. split; [|split].
  - exists 3%nat, 7%nat. vm_compute. auto 12.
  - exists 5%nat, 7%nat. vm_compute. auto 12.
  - intros k (x & m & I & Q & _). vm_compute in I. destruct I as [<-|[]]. discriminate.
Qed.

(** * C74: code that a constant condition excludes contributes nothing to the netlist.

    False for bit-aligned assignments: they do not look at the reachability of the state.
    In [if (1) x <= y; else x <= z;] the excluded assignment even becomes the driver. *)
Theorem c74_excluded_refuted : exists s,
  run (SIfElse 0 (Some true) [] (one 1 false 0 0 0 [RLsp (1%nat, Range 0 0)])
                                (one 2 false 0 0 0 [RLsp (2%nat, Range 0 0)])) = DOk s /\
  driver_label s 0 0 2 /\ ~ driver_label s 0 0 1 /\ pending_for (fxs s) (KAssign 2) 2 0.
Proof.
  eexists. split; [vm_compute; reflexivity|]. split; [|split].
  - exists 4%nat. split; [|vm_compute; auto]. exists (IV 0 0 0%nat), [4%nat]. vm_compute. intuition discriminate.
  - intros (n & (x & l & Ix & _ & G & Il) & K). vm_compute in Ix. destruct Ix as [<-|[]]. vm_compute in G.
    injection G as <-. conc.
  - exists (Pend 2%nat (lit "z") (Range 0 0) (Some 4%nat) EKNone), 4%nat. vm_compute. intuition discriminate.
Qed.
Print Assumptions c74_excluded_refuted.

(** What holds: the blocking writes of excluded code never become drivers (before the
    non-blocking writes are added, the drivers are the last writes on the paths that the
    constant conditions leave), *)
Theorem c74_blocking_partial : forall nm automatic n0 p,
  aligned_writes (all_writes p) -> paths automatic p <> [] ->
  exists s, exec nm automatic None (start n0) p = DOk s /\
    forall sy i l, driver_label s sy i l <-> exists t, In t (paths automatic p) /\ last_w t sy i = Some l.
Proof.
  intros nm automatic n0 p A NP.
  destruct (exec_ok nm automatic None (all_writes p) A p (start n0) (start_ready nm automatic None (all_writes p) n0 I) (incl_refl _))
    as (s & E & O & M & _).
  exists s. split; [exact E|]. intros sy i l. rewrite <- drv_label, (arm_drv _ _ _ _ _ _ M eq_refl NP).
  apply (start_some n0).
Qed.
Print Assumptions c74_blocking_partial.

(** and the legacy path and the conditions do nothing in unreachable code. *)
Theorem c74_references_partial : forall nm automatic external lv xs s, areach (cur s) = false ->
  each (noteReference nm automatic external lv) s xs = DOk s.
Proof. exact note_dead. Qed.
Print Assumptions c74_references_partial.

Example c74_ex : exists s,
  exec nm0 noauto None (start 3) (SIfElse 0 (Some true) [] (one 1 true 0 0 0 []) (one 2 true 0 0 0 [])) = DOk s /\
  getDrivers (defs (cur s) 0) (Range 0 0) = DOk [3]%nat.
Proof. eexists. vm_compute. repeat split. Qed.

(** * C75: automatic variables are not tracked.

    False for bit-aligned assignments, the default: symbol 0 is automatic, and it is
    driven and read. *)
Theorem c75_automatic_refuted : exists s,
  run_block nm0 (Nat.eqb 0) None 3 (SSeq (one 1 true 0 0 0 []) (one 2 true 1 0 0 [RLsp (0%nat, Range 0 0)])) = DOk s /\
  driver_label s 0 0 1 /\ edge_for (fxs s) 1 (KAssign 2) (lit "x") (Range 0 0).
Proof.
  eexists. split; [vm_compute; reflexivity|]. split.
  - exists 3%nat. split; [|vm_compute; auto]. exists (IV 0 0 0%nat), [3%nat]. vm_compute. intuition discriminate.
  - exists 3%nat, 4%nat. vm_compute. auto.
Qed.
Print Assumptions c75_automatic_refuted.

(** What holds: with legacy assignments an automatic variable has no driver, no edge and
    no pending R-value. *)
Theorem c75_legacy_partial : forall nm automatic n0 p,
  aligned_writes (all_writes p ++ nb_writes automatic p) -> live p = true -> legacy p = true ->
  exists s, run_block nm automatic None n0 p = DOk s /\
    forall sy, automatic sy = true ->
      (forall i n, ~ driven_by (cur s) sy i n) /\ (forall k i, ~ pending_for (fxs s) k sy i) /\
      (forall l k b, (forall sy', nm sy' = nm sy -> sy' = sy) -> ~ edge_for (fxs s) l k (nm sy) b).
Proof.
  intros nm automatic n0 p A L G. destruct (block_ok nm automatic None n0 p A L I) as (s & E & B). exists s. split; [exact E|].
  intros sy Ha. destruct (proj1 (legacy_writes automatic) p G) as [Cp Cn].
  pose proof (proj1 (legacy_reads automatic) p G) as Cr. split; [|split].
  - intros i n H. destruct (bs_driver_nodes _ _ _ _ B sy i n H) as (l & K).
    assert (D : driver_label s sy i l) by (exists n; auto). apply (bs_drivers _ _ _ _ B) in D. unfold drives_at_end in D.
    destruct (last_w (nb_writes automatic p) sy i) as [l'|] eqn:Q; [exact (clean_last _ _ _ _ _ Cn Ha Q)|].
    destruct D as (t & It & Q'). exact (clean_last _ _ _ _ _ (Cp t It) Ha Q').
  - intros k i H. destruct (bs_pend_sound _ _ _ _ B k sy i H) as (T & b & I & _). apply Cr in I. cbn in I. congruence.
  - intros l k b Inj H. destruct (bs_edge_sound _ _ _ _ B l k (nm sy) b H) as (T & sy' & i & I & Q & _).
    apply Cr in I. cbn in I. rewrite (Inj sy' (eq_sym Q)) in I. congruence.
Qed.
Print Assumptions c75_legacy_partial.

Example c75_ex : exists s,
  run_block nm0 (Nat.eqb 0) None 3 (SSeq (SLegacy 1 true [(0%nat, Range 0 0)] []) (SLegacy 2 true [(1%nat, Range 0 0)] [(0%nat, Range 0 0); (2%nat, Range 0 0)])) = DOk s /\
  fdeps (fxs s) = [] /\ map psym (fpend (fxs s)) = [2]%nat /\ getDrivers (defs (cur s) 1) (Range 0 0) = DOk [4]%nat.
Proof. eexists. vm_compute. repeat split. Qed.
