(** Properties C45-C47, C68 and C69: the pending R-value queue, filled by concurrent
    blocks and resolved by concurrent threads. *)
From Coq Require Import String.
From Verif Require Import Base M_Graph S_Graph P_Graph M_Range M_Netlist M_Annot S_Annot P_Annot
  M_Interval S_Interval M_Heap M_Drivers S_Drivers P_Path P_Drivers M_Pending S_Pending P_Pending P_Pending2
  Properties_Drivers.
Notation length := List.length.
Local Open Scope nat_scope.

(** * C45: whatever the schedule, phases 2 and 3 leave the queue that sequential
    execution of the blocks leaves: what was queued before, then the items of the blocks in
    block order.  The buffers are emptied and the profile counts the items. *)
Theorem c45_drain_schedule_independent : forall tasks q sched s,
  pexec tasks sched (pinit q tasks) = Some s -> pdone s ->
  (forall k, In k tasks -> t_throws k = false) ->
  phase2_result tasks s = inr (q ++ flat_map t_items tasks) /\
  phase2_seq 0 tasks q = inr (q ++ flat_map t_items tasks) /\
  (forall i, i < length tasks -> snd (fst (drain (length tasks) s)) i = []) /\
  snd (drain (length tasks) s) = length (flat_map t_items tasks).
Proof.
  intros tasks q sched s E D NT. destruct (phase2_done _ _ _ _ E D) as (b' & DR & BE & _ & EX).
  assert (pexc s = None) as EN.
  { destruct (pexc s) as [i|] eqn:Q; [|reflexivity]. destruct (EX i eq_refl) as (k & K & T). apply nth_error_In in K. rewrite NT in T by assumption. discriminate. }
  unfold phase2_result. rewrite EN, DR. cbn [fst snd]. split; [reflexivity|]. split; [now apply phase2_seq_spec|]. split; [exact BE|reflexivity].
Qed.
Print Assumptions c45_drain_schedule_independent.

(** If a block throws then so does the phase, with an exception of one of the blocks; a
    sequential run throws as well. *)
Theorem c45_exception : forall tasks q sched s,
  pexec tasks sched (pinit q tasks) = Some s -> pdone s ->
  ((exists k, In k tasks /\ t_throws k = true) <-> exists i, phase2_result tasks s = inl i) /\
  (forall i, phase2_result tasks s = inl i -> exists k, nth_error tasks i = Some k /\ t_throws k = true) /\
  ((exists i, phase2_result tasks s = inl i) <-> exists j, phase2_seq 0 tasks q = inl j).
Proof.
  intros tasks q sched s E D. destruct (phase2_done _ _ _ _ E D) as (b' & DR & BE & NX & EX).
  assert (A : (exists k, In k tasks /\ t_throws k = true) <-> exists i, phase2_result tasks s = inl i).
  { unfold phase2_result. destruct (pexc s) as [i|].
    - split; [eauto|]. intros _. destruct (EX i eq_refl) as (k & K & T). exists k. split; [eapply nth_error_In; eauto|exact T].
    - split; [|intros [i Q]; discriminate]. intros (k & K & T). rewrite (NX eq_refl k K) in T. discriminate. }
  split; [exact A|]. split.
  - unfold phase2_result. intros i H. destruct (pexc s) as [j|]; [|discriminate]. injection H as <-. auto.
  - rewrite <- A. split.
    + intros (k & K & T). eapply phase2_seq_throws; eauto.
    + intros [j H]. destruct (existsb t_throws tasks) eqn:X; [apply existsb_exists in X; exact X|].
      rewrite phase2_seq_spec in H; [discriminate|]. intros k K. destruct (t_throws k) eqn:T; [|reflexivity].
      assert (existsb t_throws tasks = true) by (apply existsb_exists; eauto). congruence.
Qed.
Print Assumptions c45_exception.

(** The workers are stuck only when everything is done. *)
Theorem c45_no_deadlock : forall tasks q sched s, pexec tasks sched (pinit q tasks) = Some s ->
  (forall tc, pstep tasks tc s = None) -> pdone s.
Proof. exact phase2_stuck. Qed.
Print Assumptions c45_no_deadlock.

Definition it (sym n : nat) (r : range) : pend := Pend sym (lit "s") r (Some n) EKNone.
Definition tk (l : list pend) : task := Task l false.
(** Two workers; the second block overtakes the first. *)
Example c45_nonvacuous :
  let a := it 0 1 (Range 0 0) in let b := it 1 2 (Range 0 0) in let c := it 2 3 (Range 1 1) in
  match pexec [tk [a; b]; tk [c]] [(0,0);(1,0);(1,0);(0,0);(1,0);(0,0);(0,0)] (pinit [c] [tk [a; b]; tk [c]]) with
  | Some s => waiting s = [] /\ running s 0 = None /\ running s 1 = None /\
      phase2_result [tk [a; b]; tk [c]] s = inr [c; a; b; c]
  | None => False
  end.
Proof. vm_compute. repeat split. Qed.

(** * C46: the runs of resolveParallel.  The queue is sorted by node address in any order
    that std::sort may produce.  Every item with a node is in exactly one run, each run is
    for one node, and no two runs share a node, so no two runs emit a dependency into the
    same target. *)
Theorem c46_runs_partition : forall addr q q', (forall a b : nat, addr a = addr b -> a = b) ->
  Permutation q q' -> StronglySorted (node_le addr) q' ->
  Permutation (concat (runs q')) (filter has_target q) /\
  (forall r, In r (runs q') -> exists n, r <> [] /\ forall p, In p r -> pnode p = Some n) /\
  (forall i j r1 r2 p1 p2, nth_error (runs q') i = Some r1 -> nth_error (runs q') j = Some r2 ->
     In p1 r1 -> In p2 r2 -> pnode p1 = pnode p2 -> i = j) /\
  (forall n r, In r (runs q') -> (exists p, In p r /\ pnode p = Some n) -> Permutation r (filter (targets n) q)).
Proof.
  intros addr q q' inj P S. destruct (runs_spec addr inj q' S) as (C & ns & F & SS).
  assert (G : forall r, In r (runs q') -> exists n, r <> [] /\ forall p, In p r -> pnode p = Some n).
  { intros r I. clear - F I. induction F as [|n g ns gs (G1 & G2) F IH]; [destruct I|]. destruct I as [<-|I]; [|auto].
    exists n. split; [exact G1|]. now apply Forall_forall. }
  assert (D : forall i j r1 r2 p1 p2, nth_error (runs q') i = Some r1 -> nth_error (runs q') j = Some r2 ->
     In p1 r1 -> In p2 r2 -> pnode p1 = pnode p2 -> i = j) by (intros; eapply runs_distinct; eauto).
  assert (FP : forall f : pend -> bool, Permutation (filter f q') (filter f q)).
  { intros f. clear - P. apply Permutation_sym. induction P; cbn; auto.
    - destruct (f x); auto.
    - destruct (f x), (f y); auto; constructor.
    - etransitivity; eauto. }
  split; [rewrite C; apply FP|]. split; [exact G|]. split; [exact D|].
  intros n r I (p & Ip & Pn).
  assert (E : filter (targets n) q' = r).
  { assert (E1 : filter (targets n) q' = filter (targets n) (concat (runs q'))).
    { rewrite C. clear. induction q' as [|x l IH]; [reflexivity|]. cbn. unfold has_target, targets in *.
      destruct (pnode x) as [m|] eqn:X; [|exact IH]. cbn. rewrite X. now rewrite IH. }
    rewrite E1. apply In_nth_error in I. destruct I as [i I].
    assert (K : forall j r2, nth_error (runs q') j = Some r2 -> filter (targets n) r2 = if Nat.eqb j i then r2 else []).
    { intros j r2 J. destruct (G r2 (nth_error_In _ _ J)) as (m & _ & M).
      destruct (Nat.eqb_spec j i) as [->|NJ].
      - assert (r2 = r) by congruence. subst r2. assert (m = n) by (apply M in Ip; congruence). subst m.
        clear - M. induction r as [|x r IH]; [reflexivity|]. cbn. unfold targets at 1. rewrite (M x) by now left.
        rewrite Nat.eqb_refl, IH; [reflexivity|]. intros; apply M; now right.
      - assert (NM : m <> n \/ r2 = []).
        { destruct r2 as [|x r2']; [now right|left]. intros ->. apply NJ. apply (D j i (x :: r2') r x p J I); [now left|exact Ip|]. rewrite (M x) by now left. now rewrite Pn. }
        destruct NM as [NM| ->]; [|reflexivity].
        clear - M NM. induction r2 as [|x r2 IH]; [reflexivity|]. cbn. unfold targets at 1. rewrite (M x) by now left.
        apply Nat.eqb_neq in NM. rewrite NM. apply IH. intros; apply M; now right. }
    clear - K I. revert i I K. induction (runs q') as [|g gs IH]; intros i I K; [destruct i; discriminate|].
    cbn [concat]. rewrite filter_app. pose proof (K 0 g eq_refl) as K0. rewrite K0. destruct i as [|i]; cbn in I.
    - injection I as <-. cbn [Nat.eqb]. assert (filter (targets n) (concat gs) = []) as ->; [|apply app_nil_r].
      assert (K' : forall j r2, nth_error gs j = Some r2 -> filter (targets n) r2 = []) by (intros j r2 J; apply (K (S j) r2 J)).
      clear - K'. induction gs as [|h gs IH]; [reflexivity|]. cbn. rewrite filter_app, (K' 0 h eq_refl), IH; [reflexivity|].
      intros j r2 J. apply (K' (S j) r2 J).
    - cbn [Nat.eqb app]. apply (IH i I). intros j r2 J. apply (K (S j) r2 J). }
  rewrite <- E. apply FP.
Qed.
Print Assumptions c46_runs_partition.

(** However the runs are dealt out in blocks, the threads' dependencies have disjoint
    targets: they touch no common in-edge list and no common edge. *)
Theorem c46_threads_disjoint : forall vt dm addr q q' blocks progs,
  (forall a b : nat, addr a = addr b -> a = b) -> par_setup vt dm addr q q' blocks progs ->
  own_targets progs.
Proof. intros. eapply setup_owns; eauto. Qed.
Print Assumptions c46_threads_disjoint.
Example c46_nonvacuous :
  let nul := Pend 0 (lit "s") (Range 0 0) None EKNone in
  runs [nul; nul; it 0 1 (Range 0 0); it 1 1 (Range 2 2); it 1 4 (Range 0 0); it 2 6 (Range 0 0); it 3 6 (Range 0 0)]
  = [[it 0 1 (Range 0 0); it 1 1 (Range 2 2)]; [it 1 4 (Range 0 0)]; [it 2 6 (Range 0 0); it 3 6 (Range 0 0)]] /\
  runs [nul] = [] /\ runs [] = [].
Proof. vm_compute. auto. Qed.

(** * C47: resolveParallel against resolveSequential. *)
(** Every finished interleaving, for every division in blocks, gives each pair of nodes the
    edges that one thread walking the sorted queue would: the schedule does not matter. *)
Theorem c47_schedule_independent : forall vt dm addr q q' blocks progs nl ds nl' sched s,
  (forall a b : nat, addr a = addr b -> a = b) -> par_setup vt dm addr q q' blocks progs ->
  reachable outEdgeIndexThreshold (ng nl) ->
  emit_all vt dm q' = DOk ds -> drun nl ds = Some nl' ->
  rexec sched (rinit nl progs) = Some s -> rdone s -> same_annotations (rnl s) nl'.
Proof. intros. eapply setup_sequential; eauto. Qed.
Print Assumptions c47_schedule_independent.
(** A thread with work left can always move. *)
Theorem c47_progress : forall vt dm addr q q' blocks progs nl ds nl' sched s t,
  (forall a b : nat, addr a = addr b -> a = b) -> par_setup vt dm addr q q' blocks progs ->
  reachable outEdgeIndexThreshold (ng nl) ->
  emit_all vt dm q' = DOk ds -> drun nl ds = Some nl' ->
  rexec sched (rinit nl progs) = Some s -> fst (rth s t) <> [] -> rstep t s <> None.
Proof. intros. eapply setup_progress; eauto. Qed.
Print Assumptions c47_progress.

(** Against the unsorted queue: the same pairs of nodes are connected. *)
Theorem c47_same_edges : forall vt dm addr q q' blocks progs nl ds ds' nl1 nl2 sched s,
  (forall a b : nat, addr a = addr b -> a = b) -> par_setup vt dm addr q q' blocks progs ->
  reachable outEdgeIndexThreshold (ng nl) ->
  emit_all vt dm q = DOk ds -> drun nl ds = Some nl1 ->
  emit_all vt dm q' = DOk ds' -> drun nl ds' = Some nl2 ->
  rexec sched (rinit nl progs) = Some s -> rdone s ->
  forall a b, has_edge (rnl s) a b <-> has_edge nl1 a b.
Proof.
  intros vt dm addr q q' blocks progs nl ds ds' nl1 nl2 sched s inj SU RG E D E' D' EX DN a b.
  pose proof (setup_sequential vt dm addr q q' blocks progs inj SU nl ds' nl2 sched s RG E' D' EX DN a b) as SA.
  unfold has_edge at 1. rewrite SA. fold (has_edge nl2 a b).
  rewrite (drun_edges nl ds nl1 a b RG D), (drun_edges nl ds' nl2 a b RG D'). apply or_iff_compat_l.
  destruct (emit_perm vt dm q q' (ps_perm _ _ _ _ _ _ _ SU) ds E) as (d2 & E2 & P). assert (d2 = ds') by congruence. subst d2.
  split; intros (d & I & H); exists d; split; auto.
  - eapply Permutation_in; [apply Permutation_sym; exact P|exact I].
  - eapply Permutation_in; [exact P|exact I].
Qed.
Print Assumptions c47_same_edges.

(** If the sort keeps the order of the items of each target, the annotations agree too. *)
Theorem c47_stable_sort_same_partial : forall vt dm addr q q' blocks progs nl ds ds' nl1 nl2 sched s,
  (forall a b : nat, addr a = addr b -> a = b) -> par_setup vt dm addr q q' blocks progs ->
  (forall n, filter (targets n) q' = filter (targets n) q) ->
  reachable outEdgeIndexThreshold (ng nl) ->
  emit_all vt dm q = DOk ds -> drun nl ds = Some nl1 ->
  emit_all vt dm q' = DOk ds' -> drun nl ds' = Some nl2 ->
  rexec sched (rinit nl progs) = Some s -> rdone s -> same_annotations (rnl s) nl1.
Proof.
  intros vt dm addr q q' blocks progs nl ds ds' nl1 nl2 sched s inj SU ST RG E D E' D' EX DN a b.
  rewrite (setup_sequential vt dm addr q q' blocks progs inj SU nl ds' nl2 sched s RG E' D' EX DN a b).
  symmetry. exact (drun_stable vt dm nl q q' ds ds' nl1 nl2 RG ST E E' D D' a b).
Qed.
Print Assumptions c47_stable_sort_same_partial.

(** In any order, the annotated bits agree for pairs whose calls name one symbol. *)
Theorem c47_same_bits_partial : forall vt dm addr q q' blocks progs nl ds ds' nl1 nl2 sched s a b sy,
  (forall a b : nat, addr a = addr b -> a = b) -> par_setup vt dm addr q q' blocks progs ->
  reachable outEdgeIndexThreshold (ng nl) ->
  emit_all vt dm q = DOk ds -> drun nl ds = Some nl1 ->
  emit_all vt dm q' = DOk ds' -> drun nl ds' = Some nl2 ->
  rexec sched (rinit nl progs) = Some s -> rdone s ->
  (forall r k x, In (DDep a b x r k) ds -> x = Some sy) ->
  (forall x, In x (pair_ann nl a b) -> asym x = Some sy) ->
  forall i, annotated (rnl s) a b sy i <-> annotated nl1 a b sy i.
Proof.
  intros vt dm addr q q' blocks progs nl ds ds' nl1 nl2 sched s a b sy inj SU RG E D E' D' EX DN OS M i.
  pose proof (setup_sequential vt dm addr q q' blocks progs inj SU nl ds' nl2 sched s RG E' D' EX DN a b) as SA.
  unfold annotated at 1. rewrite SA. fold (annotated nl2 a b sy i).
  destruct (emit_perm vt dm q q' (ps_perm _ _ _ _ _ _ _ SU) ds E) as (d2 & E2 & P). assert (d2 = ds') by congruence. subst d2.
  assert (OS' : one_symbol a b sy ds').
  { intros r k x I. apply (OS r k). eapply Permutation_in; [apply Permutation_sym; exact P|exact I]. }
  rewrite (drun_bits nl ds nl1 a b sy RG D OS (or_introl M)), (drun_bits nl ds' nl2 a b sy RG D' OS' (or_introl M)).
  apply or_iff_compat_l. split; intros (x & r & k & I & W); exists x, r, k; split; auto.
  - eapply Permutation_in; [apply Permutation_sym; exact P|exact I].
  - eapply Permutation_in; [exact P|exact I].
Qed.
Print Assumptions c47_same_bits_partial.

(** As worded the claim is false, because std::sort may reorder the items of one target and
    the annotation depends on the order: reading bits 0, 2, 1 of one driver in this order
    gives the edges [1:0] and [2:2]; in the order 0, 1, 2 one edge [2:0]. *)
Definition three : netlist :=
  mk_netlist [NInfo 0 KAssignment None None; NInfo 1 KAssignment None None; NInfo 2 KAssignment None None] [].
Lemma three_reachable : reachable outEdgeIndexThreshold (ng three).
Proof. apply mk_graph_reachable. Qed.
(** Symbol 0, bits 3..0, driven by node 0; symbol 1 likewise. *)
Definition drv0 : dmap := match run_calls dm_empty [(Range 0 3, [0], false)] with DOk d => d | DErr _ => dm_empty end.
Definition dm0 : nat -> option dmap := fun y => match y with 0 | 1 => Some drv0 | _ => None end.
Definition q_seq : list pend := [it 0 1 (Range 0 0); it 0 1 (Range 2 2); it 0 1 (Range 1 1)].
Definition q_par : list pend := [it 0 1 (Range 0 0); it 0 1 (Range 1 1); it 0 1 (Range 2 2)].
Definition progs1 (q : list pend) : nat -> list dep :=
  fun t => match t with 0 => match emit_all vt_empty dm0 q with DOk l => l | DErr _ => [] end | _ => [] end.

Theorem c47_same_annotations_refuted :
  ~ (forall vt dm addr q q' blocks progs nl ds nl1 sched s,
       (forall a b : nat, addr a = addr b -> a = b) -> par_setup vt dm addr q q' blocks progs ->
       reachable outEdgeIndexThreshold (ng nl) ->
       emit_all vt dm q = DOk ds -> drun nl ds = Some nl1 ->
       rexec sched (rinit nl progs) = Some s -> rdone s -> same_annotations (rnl s) nl1).
Proof.
  intros H.
  assert (SU : par_setup vt_empty dm0 (fun n => n) q_seq q_par [[q_par]] (progs1 q_par)).
  { constructor.
    - unfold q_seq, q_par. constructor. apply perm_swap.
    - repeat (constructor || (cbn; lia)).
    - reflexivity.
    - intros [|[|t]]; reflexivity. }
  destruct (emit_all vt_empty dm0 q_seq) as [ds|] eqn:E; [|vm_compute in E; discriminate].
  destruct (drun three ds) as [nl1|] eqn:D; [|vm_compute in E; injection E as <-; vm_compute in D; discriminate].
  destruct (rexec [0;0;0;0;0;0] (rinit three (progs1 q_par))) as [s|] eqn:X; [|vm_compute in X; discriminate].
  assert (DN : rdone s).
  { vm_compute in X. injection X as <-. intros [|t]; reflexivity. }
  specialize (H _ _ _ _ _ _ _ three ds nl1 _ s (fun a b e => e) SU three_reachable E D X DN 0 1).
  vm_compute in E. injection E as <-. vm_compute in D. injection D as <-. vm_compute in X. injection X as <-.
  vm_compute in H. discriminate.
Qed.
Print Assumptions c47_same_annotations_refuted.

(** Two symbols between the same nodes: the annotation that is left depends on the order. *)
Theorem c47_symbol_order_refuted :
  let a := Pend 0 (lit "x") (Range 0 0) (Some 1) EKNone in
  let b := Pend 1 (lit "y") (Range 0 0) (Some 1) EKNone in
  let names q := match emit_all vt_empty dm0 q with
                 | DOk ds => option_map (fun nl => map asym (pair_ann nl 0 1)) (drun three ds)
                 | DErr _ => None
                 end in
  Permutation [a; b] [b; a] /\ StronglySorted (node_le (fun n => n)) [b; a] /\
  names [a; b] = Some [Some (lit "y")] /\ names [b; a] = Some [Some (lit "x")].
Proof.
  intros a b names. split; [apply perm_swap|]. split; [repeat (constructor || (cbn; lia))|].
  split; vm_compute; reflexivity.
Qed.
Print Assumptions c47_symbol_order_refuted.

(** Two threads in the middle of addDependency at the same time. *)
Definition q_two : list pend :=
  [it 0 2 (Range 0 0); it 0 1 (Range 0 0); it 0 2 (Range 2 2); it 1 1 (Range 3 1)].
Definition q_two' : list pend :=
  [it 0 1 (Range 0 0); it 1 1 (Range 3 1); it 0 2 (Range 0 0); it 0 2 (Range 2 2)].
Definition emitted (q : list pend) : list dep := match emit_all vt_empty dm0 q with DOk l => l | DErr _ => [] end.
Definition progs2 : nat -> list dep :=
  fun t => match t with
           | 0 => emitted [it 0 1 (Range 0 0); it 1 1 (Range 3 1)]
           | 1 => emitted [it 0 2 (Range 0 0); it 0 2 (Range 2 2)]
           | _ => []
           end.
Example c47_nonvacuous :
  par_setup vt_empty dm0 (fun n => n) q_two q_two'
    [[[it 0 1 (Range 0 0); it 1 1 (Range 3 1)]]; [[it 0 2 (Range 0 0); it 0 2 (Range 2 2)]]] progs2 /\
  (forall n, filter (targets n) q_two' = filter (targets n) q_two) /\
  match rexec [0;1;1;0;0;1;1;0;1;1] (rinit three progs2) with
  | Some s => rdone s /\ map abounds (pair_ann (rnl s) 0 1) = [Range 0 3] /\
              map abounds (pair_ann (rnl s) 0 2) = [Range 0 0; Range 2 2]
  | None => False
  end.
Proof.
  split; [constructor|split].
  - unfold q_two, q_two'.
    change q_two with ([it 0 2 (Range 0 0)] ++ it 0 1 (Range 0 0) :: [it 0 2 (Range 2 2); it 1 1 (Range 3 1)]).
    apply Permutation_trans with (it 0 1 (Range 0 0) :: [it 0 2 (Range 0 0); it 0 2 (Range 2 2); it 1 1 (Range 3 1)]); [apply perm_swap|].
    constructor. apply (Permutation_cons_append [it 0 2 (Range 0 0); it 0 2 (Range 2 2)] (it 1 1 (Range 3 1))) || apply Permutation_sym.
    apply (Permutation_cons_append [it 0 2 (Range 0 0); it 0 2 (Range 2 2)] (it 1 1 (Range 3 1))).
  - repeat (constructor || (cbn; lia)).
  - vm_compute. reflexivity.
  - intros [|[|[|t]]]; vm_compute; reflexivity.
  - intros [|[|[|n]]]; reflexivity.
  - vm_compute. split; [|auto]. intros [|[|t]]; reflexivity.
Qed.

(** * C68: resolving a pending R-value asks for exactly one dependency from each driver of
    each stretch of its bits, for exactly the bits they have in common. *)
Theorem c68_emission_exact : forall vt dm p n h d,
  pnode p = Some n -> vt_lookup vt (psym p) (pbounds p) = None -> dm (psym p) = Some d ->
  run_calls dm_empty h = DOk d -> ~ dangling d ->
  exists ds, emitEdgesFor vt dm p = DOk ds /\
    (forall x, In x ds -> exists s eb, x = DDep s n (Some (pref p)) eb (pkind p) /\
       forall i, bit_in eb i -> bit_in (pbounds p) i /\ exists l, seen d i l /\ In s l) /\
    (forall i s, bit_in (pbounds p) i ->
       ((exists eb, In (DDep s n (Some (pref p)) eb (pkind p)) ds /\ bit_in eb i) <->
        exists l, seen d i l /\ In s l)).
Proof.
  intros vt dm p n h d PN VT DM RC ND. unfold emitEdgesFor. rewrite PN, VT, DM.
  destruct (c33_each_interval_exact h d (pbounds p) RC ND) as (out & E & EX). rewrite E. cbn [dbind].
  eexists. split; [reflexivity|].
  assert (A : forall x, In x (flat_map (fun x => match intersection (fst x) (pbounds p) with
      | None => [] | Some eb => map (fun s => DDep s n (Some (pref p)) eb (pkind p)) (snd x) end) out) <->
      exists r l eb s, In (r, l) out /\ intersection r (pbounds p) = Some eb /\ In s l /\ x = DDep s n (Some (pref p)) eb (pkind p)).
  { intros x. rewrite in_flat_map. split.
    - intros ([r l] & I & J). cbn [fst snd] in J. destruct (intersection r (pbounds p)) as [eb|] eqn:X; [|destruct J].
      apply in_map_iff in J. destruct J as (s & <- & J). exists r, l, eb, s. auto.
    - intros (r & l & eb & s & I & X & J & ->). exists (r, l). split; [exact I|]. cbn [fst snd]. rewrite X. apply in_map_iff. eauto. }
  split.
  - intros x Ix. apply A in Ix. destruct Ix as (r & l & eb & s & I & X & J & ->). exists s, eb. split; [reflexivity|].
    intros i B. pose proof (inter_bits r (pbounds p)) as K. rewrite X in K. apply K in B. destruct B as [B1 B2].
    split; [exact B2|]. apply EX; [exact B2|]. exists r, l. auto.
  - intros i s B. rewrite (EX i s B). split.
    + intros (eb & I & C). apply A in I. destruct I as (r & l & eb' & s' & I & X & J & Q). injection Q as <- <-.
      pose proof (inter_bits r (pbounds p)) as K. rewrite X in K. apply K in C. destruct C as [C _]. exists r, l. split; [exact I|]. split; [exact C|exact J].
    + intros (r & l & I & C & J). pose proof (inter_bits r (pbounds p)) as K.
      destruct (intersection r (pbounds p)) as [eb|] eqn:X.
      * exists eb. split; [apply A; exists r, l, eb, s; auto|]. apply K. auto.
      * exfalso. apply (K i). auto.
Qed.
Print Assumptions c68_emission_exact.

(** A register (or merged state) node whose bits are exactly the requested ones is used
    instead of the drivers; without a target node nothing is emitted. *)
Theorem c68_state_first : forall vt dm p n st, pnode p = Some n ->
  vt_lookup vt (psym p) (pbounds p) = Some st ->
  emitEdgesFor vt dm p = DOk [DDep st n (Some (pref p)) (pbounds p) (pkind p)].
Proof. intros vt dm p n st PN VT. unfold emitEdgesFor. now rewrite PN, VT. Qed.
Print Assumptions c68_state_first.
Theorem c68_no_node : forall vt dm p, pnode p = None -> emitEdgesFor vt dm p = DOk [].
Proof. intros vt dm p PN. unfold emitEdgesFor. now rewrite PN. Qed.
Print Assumptions c68_no_node.
Example c68_nonvacuous :
  let d := match run_calls dm_empty [(Range 0 7, [0], true); (Range 4 5, [1], true)] with DOk d => d | DErr _ => dm_empty end in
  emitEdgesFor vt_empty (fun _ => Some d) (it 0 2 (Range 5 2)) =
    DOk [DDep 0 2 (Some (lit "s")) (Range 2 3) EKNone; DDep 0 2 (Some (lit "s")) (Range 4 5) EKNone;
         DDep 1 2 (Some (lit "s")) (Range 4 5) EKNone].
Proof. vm_compute. reflexivity. Qed.

(** * C69: the whole of phase 4.  [supplies vt dm p a i]: node [a] supplies bit [i] of the
    pending item, as its register or as one of its drivers. *)
Definition supplies (vt : vtracker) (dm : nat -> option dmap) (p : pend) (a : nat) (i : Z) : Prop :=
  bit_in (pbounds p) i /\
  match vt_lookup vt (psym p) (pbounds p) with
  | Some st => st = a
  | None => exists d l, dm (psym p) = Some d /\ seen d i l /\ In a l
  end.
(** After resolving a queue, the bits of the symbol annotated on the edges from node [a] to
    node [b] are those annotated before and those that [a] supplies to a pending item of
    [b].  Asked of the pair: one symbol, and a source node with bounds of its own has the
    bits it supplies among them. *)
Theorem c69_resolution_exact : forall vt dm q ds nl nl' a b sy,
  reachable outEdgeIndexThreshold (ng nl) ->
  (forall y d, dm y = Some d -> (exists h, run_calls dm_empty h = DOk d) /\ ~ dangling d) ->
  emit_all vt dm q = DOk ds -> drun nl ds = Some nl' ->
  (forall p, In p q -> pnode p = Some b -> pref p = sy) ->
  (forall x, In x (pair_ann nl a b) -> asym x = Some sy) ->
  (forall nb p i, nbounds (ninf nl a) = Some nb -> In p q -> supplies vt dm p a i -> bit_in nb i) ->
  forall i, annotated nl' a b sy i <->
    annotated nl a b sy i \/ exists p, In p q /\ pnode p = Some b /\ supplies vt dm p a i.
Proof.
  intros vt dm q ds nl nl' a b sy RG HD E D SY M NB i.
  assert (OS : one_symbol a b sy ds).
  { intros r k x I. destruct (emit_all_in _ _ _ _ _ E I) as (p & l & P1 & P2 & P3).
    destruct (emit_dep _ _ _ _ _ P2 P3) as (n & s & r' & PN & Q). injection Q as -> <- -> _ _. f_equal. now apply SY. }
  rewrite (drun_bits nl ds nl' a b sy RG D OS (or_introl M)). apply or_iff_compat_l. split.
  - intros (x & r & k & I & W). destruct (emit_all_in _ _ _ _ _ E I) as (p & l & P1 & P2 & P3).
    destruct (emit_dep _ _ _ _ _ P2 P3) as (n & s & r' & PN & Q). injection Q as -> <- -> <- ->.
    exists p. split; [exact P1|]. split; [exact PN|]. destruct W as [W _]. unfold supplies.
    destruct (vt_lookup vt (psym p) (pbounds p)) as [st|] eqn:VT.
    + rewrite (c68_state_first vt dm p b st PN VT) in P2. injection P2 as <-. destruct P3 as [P3|[]]. injection P3 as -> <-. auto.
    + destruct (dm (psym p)) as [d|] eqn:DM.
      * destruct (HD _ _ DM) as [[h RC] ND]. destruct (c68_emission_exact vt dm p b h d PN VT DM RC ND) as (ds' & E' & F & _).
        assert (ds' = l) by congruence. subst ds'. destruct (F _ P3) as (s' & eb & Q & G). injection Q as <- <-.
        destruct (G i W) as (B & l' & S & J). split; [exact B|]. exists d, l'. auto.
      * exfalso. unfold emitEdgesFor in P2. rewrite PN, VT, DM in P2. injection P2 as <-. destruct P3.
  - intros (p & P1 & PN & SP).
    destruct (emit_all_has _ _ _ _ _ E P1) as (l2 & E2 & IN).
    assert (EB : exists eb, In (DDep a b (Some (pref p)) eb (pkind p)) l2 /\ bit_in eb i).
    { destruct SP as [B SP]. destruct (vt_lookup vt (psym p) (pbounds p)) as [st|] eqn:VT.
      - subst st. rewrite (c68_state_first vt dm p b a PN VT) in E2. injection E2 as <-. exists (pbounds p). split; [now left|exact B].
      - destruct SP as (d & l & DM & S & J). destruct (HD _ _ DM) as [[h RC] ND].
        destruct (c68_emission_exact vt dm p b h d PN VT DM RC ND) as (ds' & E' & F & G).
        assert (l2 = ds') by congruence. subst l2. apply (proj2 (G i a B)). eauto. }
    destruct EB as (eb & I & BE).
    exists (Some (pref p)), eb, (pkind p). split; [now apply IN|]. split; [exact BE|].
    intros nb HN _. eapply NB; eauto.
Qed.
Print Assumptions c69_resolution_exact.

(** The same for resolveParallel. *)
Theorem c69_parallel_exact : forall vt dm addr q q' blocks progs ds ds' nl nl1 nl2 sched s a b sy,
  (forall a b : nat, addr a = addr b -> a = b) -> par_setup vt dm addr q q' blocks progs ->
  reachable outEdgeIndexThreshold (ng nl) ->
  (forall y d, dm y = Some d -> (exists h, run_calls dm_empty h = DOk d) /\ ~ dangling d) ->
  emit_all vt dm q = DOk ds -> drun nl ds = Some nl1 ->
  emit_all vt dm q' = DOk ds' -> drun nl ds' = Some nl2 ->
  rexec sched (rinit nl progs) = Some s -> rdone s ->
  (forall p, In p q -> pnode p = Some b -> pref p = sy) ->
  (forall x, In x (pair_ann nl a b) -> asym x = Some sy) ->
  (forall nb p i, nbounds (ninf nl a) = Some nb -> In p q -> supplies vt dm p a i -> bit_in nb i) ->
  forall i, annotated (rnl s) a b sy i <->
    annotated nl a b sy i \/ exists p, In p q /\ pnode p = Some b /\ supplies vt dm p a i.
Proof.
  intros vt dm addr q q' blocks progs ds ds' nl nl1 nl2 sched s a b sy inj SU RG HD E D E' D' EX DN SY M NB i.
  rewrite (c47_same_bits_partial vt dm addr q q' blocks progs nl ds ds' nl1 nl2 sched s a b sy inj SU RG E D E' D' EX DN).
  - eapply c69_resolution_exact; eauto.
  - intros r k x I. destruct (emit_all_in _ _ _ _ _ E I) as (p & l & P1 & P2 & P3).
    destruct (emit_dep _ _ _ _ _ P2 P3) as (n & s' & r' & PN & Q). injection Q as -> <- -> _ _. f_equal. now apply SY.
  - exact M.
Qed.
Print Assumptions c69_parallel_exact.
Example c69_nonvacuous :
  match emit_all vt_empty dm0 q_seq with
  | DOk ds => option_map (fun nl => map (fun x => (asym x, abounds x)) (pair_ann nl 0 1)) (drun three ds)
  | DErr _ => None
  end = Some [(Some (lit "s"), Range 0 1); (Some (lit "s"), Range 2 2)].
Proof. vm_compute. reflexivity. Qed.
(** Its hypotheses hold there. *)
Example c69_hypotheses :
  (forall y d, dm0 y = Some d -> (exists h, run_calls dm_empty h = DOk d) /\ ~ dangling d) /\
  (forall p, In p q_seq -> pnode p = Some 1 -> pref p = lit "s") /\ pair_ann three 0 1 = [] /\
  nbounds (ninf three 0) = None.
Proof.
  split; [|split; [|split; reflexivity]].
  - intros [|[|y]] d [= <-]; (split; [exists [(Range 0 3, [0], false)]; vm_compute; reflexivity|]);
      intros (x & I & G); vm_compute in I; destruct I as [<-|[]]; vm_compute in G; discriminate.
  - intros p I _. cbn in I. intuition (subst; reflexivity).
Qed.
