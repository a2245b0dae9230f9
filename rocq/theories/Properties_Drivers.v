(** Properties C30-C33: per-bit driver tracking (ValueTracker::addDrivers, getDrivers,
    forEachDriverInterval). *)
From Coq Require Import Sorted.
From Verif Require Import Base M_Range M_Interval M_Heap M_Drivers S_Interval S_Drivers
  P_Interval P_Heap P_Drivers P_DriversX.
Local Open Scope Z_scope.

(** * C30: intervals stay well formed and disjoint and cover exactly the driven bits.

    Full statement: every history of calls runs to completion, and then the above holds.
    Completion is false (next theorem); what is proved is that a stale handle is the
    only way to fail, so the assertions at ValueTracker.cpp 199 and 264, an insertion
    with left > right and a corrupt free list are impossible, and that every history
    which completes has the property. *)
Theorem c30_coverage_partial : forall h : list call,
  (forall e, run_calls dm_empty h = DErr e -> e = EHandle) /\
  forall d, run_calls dm_empty h = DOk d ->
    nonempty_ivs (ivs d) /\ disjoint_ivs (ivs d) /\
    forall i, covers (ivs d) i <->
      exists b dl m, In (b, dl, m) h /\
        Z.min (rleft b) (rright b) <= i <= Z.max (rleft b) (rright b).
Proof.
  intros h. destruct (run_cov h dm_empty dok_empty) as [E|(d & E & K & C)]; rewrite E.
  - split; [intros e Q; congruence|discriminate].
  - split; [discriminate|]. intros d' Q. inversion Q; subst.
    destruct (proj1 (wf_spec (ivs d')) (proj1 K)) as [W1 W2].
    split; [exact W1|]. split; [exact W2|].
    intros i. rewrite C. split.
    + intros [(x & [] & _)|H]. exact H.
    + auto.
Qed.
Print Assumptions c30_coverage_partial.

(** Four blocking assignments  a = x; a[5:4] = y; a[9:4] = z; a[3:0] = w  abort: the
    second splits [0,9] into two intervals that share one handle, the third erases the
    shared list, the fourth reads it. *)
Theorem c30_completes_refuted :
  run_calls dm_empty [(Range 0 9, [0%nat], false); (Range 4 5, [1%nat], false);
                      (Range 4 9, [2%nat], false); (Range 0 3, [3%nat], false)]
  = DErr EHandle.
Proof. vm_compute. reflexivity. Qed.
Print Assumptions c30_completes_refuted.

Example c30_ex :
  match run_calls dm_empty [(Range 0 7, [0%nat], false); (Range 4 11, [1%nat], true);
                            (Range 2 3, [2%nat], false)] with
  | DOk d => map (fun x => (ilo x, ihi x)) (ivs d) = [(0, 1); (2, 3); (4, 7); (8, 11)]
  | DErr _ => False
  end.
Proof. vm_compute. reflexivity. Qed.

(** * C31: the drivers of a bit are those of the last replacing call and the later
    merging ones ([bit_drivers]).

    False: intervals split by a call in the middle share a list, and a later call on
    one of them changes the other.  After  [9:0] = n0; [5:4] = n1; [3:0] = n2  bits
    [9:6] report n2, which never drove them, and n0 is lost. *)
Theorem c31_drivers_exact_refuted : exists h d i l,
  run_calls dm_empty h = DOk d /\ seen d i l /\
  bit_drivers h i = Some [0%nat] /\ ~ In 0%nat l /\ In 2%nat l.
Proof.
  exists [(Range 0 9, [0%nat], false); (Range 4 5, [1%nat], false); (Range 0 3, [2%nat], false)].
  eexists. exists 6. eexists. split; [vm_compute; reflexivity|]. split.
  - exists (IV 6 9 0%nat). cbn. split; [auto|]. split; [lia|reflexivity].
  - split; [vm_compute; reflexivity|]. cbn. split; [|auto].
    intros [Q|[]]; discriminate.
Qed.
Print Assumptions c31_drivers_exact_refuted.

(** The same with merging calls only: n2 is reported for bit 6 that it never drove. *)
Theorem c31_merge_spurious_refuted : exists h d i l,
  (forall b dl m, In (b, dl, m) h -> m = true) /\
  run_calls dm_empty h = DOk d /\ seen d i l /\
  bit_drivers h i = Some [0%nat] /\ In 2%nat l.
Proof.
  exists [(Range 0 9, [0%nat], true); (Range 4 5, [1%nat], true); (Range 0 3, [2%nat], true)].
  eexists. exists 6. eexists. split.
  - intros b dl m I. cbn in I. intuition congruence.
  - split; [vm_compute; reflexivity|]. split.
    + exists (IV 6 9 0%nat). cbn. split; [auto|]. split; [lia|reflexivity].
    + split; [vm_compute; reflexivity|]. cbn. auto.
Qed.
Print Assumptions c31_merge_spurious_refuted.

(** It holds for every history in which no call lies strictly inside (at both ends) the
    range of an earlier call: such a history completes, leaves no stale handle, and each
    bit reports exactly its drivers. *)
Theorem c31_drivers_exact_partial : forall h : list call,
  (forall h1 c1 h2 c2 h3, h = h1 ++ c1 :: h2 ++ c2 :: h3 ->
     ~ (lower (fst (fst c1)) < lower (fst (fst c2)) /\
        upper (fst (fst c2)) < upper (fst (fst c1)))) ->
  exists d, run_calls dm_empty h = DOk d /\ ~ dangling d /\
    forall i,
      match bit_drivers h i with
      | None => ~ covers (ivs d) i
      | Some want => exists l, seen d i l /\ (forall l', seen d i l' -> l' = l) /\
                       forall n, In n l <-> In n want
      end.
Proof.
  intros h H.
  destruct (run_exact_empty h) as (d & E & K & [V J] & B).
  { apply no_inner_spec; [intros q []|exact H]. }
  exists d. split; [exact E|]. split.
  { intros (x & I & G). exact (V x I G). }
  intros i. destruct (B i) as [B1 B2]. destruct (bit_drivers h i) as [want|].
  - assert (C : covers (ivs d) i).
    { destruct (find (fun x => (ilo x <=? i) && (i <=? ihi x)) (ivs d)) as [x|] eqn:F.
      - apply find_some in F. destruct F as [I C]. apply andb_true_iff in C.
        destruct C as [C1 C2]. apply Z.leb_le in C1, C2. exists x. split; [auto|].
        split; auto.
      - exfalso. assert (Q : Some want = None); [|discriminate]. apply B1.
        intros (x & I & C). unfold inside in C. pose proof (find_none _ _ F x I) as Q.
        cbn in Q. apply andb_false_iff in Q. rewrite !Z.leb_gt in Q. lia. }
    destruct C as (x & I & C). destruct (allvalid_some d x V I) as (l & G).
    exists l. split; [exists x; auto|]. split.
    + intros l' (y & I' & C' & G').
      destruct (wf_other (ivs d) x y (proj1 K) I I') as [->|D]; [congruence|].
      unfold inside in C. lia.
    + intros n. split; intros N.
      * destruct (proj1 (B2 n)) as (l0 & Q & N0); [exists x, l; auto|]. congruence.
      * destruct (proj2 (B2 n)) as (y & l' & I' & C' & G' & N'); [eauto|].
        destruct (wf_other (ivs d) x y (proj1 K) I I') as [->|D]; [congruence|].
        unfold inside in C, C'. lia.
  - apply B1. reflexivity.
Qed.
Print Assumptions c31_drivers_exact_partial.

Example c31_ex :
  let h := [(Range 0 7, [0%nat], false); (Range 4 11, [1%nat], true); (Range 0 5, [2%nat], false)] in
  (map (bit_drivers h) [0; 4; 6; 9; 12],
   match run_calls dm_empty h with
   | DOk d => map (fun x => (ilo x, ihi x, get (lists d) (ival x))) (ivs d)
   | DErr _ => []
   end)
  = ([Some [2%nat]; Some [2%nat]; Some [0%nat; 1%nat]; Some [1%nat]; None],
     [(0, 5, Some [2%nat]); (6, 7, Some [0%nat; 1%nat]); (8, 11, Some [1%nat])]).
Proof. vm_compute. reflexivity. Qed.

(** * C32: with merging calls only, no driver is ever lost and no handle is stale. *)
Theorem c32_merge_keeps : forall h : list call,
  (forall b dl m, In (b, dl, m) h -> m = true) ->
  exists d, run_calls dm_empty h = DOk d /\ ~ dangling d /\
    forall b dl m i n, In (b, dl, m) h ->
      Z.min (rleft b) (rright b) <= i <= Z.max (rleft b) (rright b) -> In n dl ->
      exists l, seen d i l /\ In n l.
Proof.
  intros h Hm.
  destruct (run_merge h dm_empty dok_empty) as (d & E & K & V & _ & C); [|exact Hm|].
  { intros x []. }
  exists d. split; [exact E|]. split.
  - intros (x & I & G). exact (V x I G).
  - intros b dl m i n I Ci N. destruct (C b dl m i n I Ci N) as (x & l & Ix & Cx & G & Nl).
    exists l. split; [exists x; auto|exact Nl].
Qed.
Print Assumptions c32_merge_keeps.

(** Replacing calls can leave a stale handle behind. *)
Example c32_ex_dangling : exists d,
  run_calls dm_empty [(Range 0 9, [0%nat], false); (Range 4 5, [1%nat], false);
                      (Range 4 9, [2%nat], false)] = DOk d /\ dangling d.
Proof.
  eexists. split; [vm_compute; reflexivity|]. exists (IV 0 3 0%nat). split; [cbn; auto|reflexivity].
Qed.

(** * C33: getDrivers returns exactly the drivers recorded for a bit of the range.

    False: an interval that overlaps the range without containing it or being
    contained in it is skipped (ValueTracker.cpp 300-309).  [3:0] driven by n0, query
    [5:2]: nothing. *)
Theorem c33_getDrivers_refuted : exists h d b i l,
  run_calls dm_empty h = DOk d /\ lower b <= i <= upper b /\
  seen d i l /\ In 0%nat l /\ getDrivers d b = DOk [].
Proof.
  exists [(Range 0 3, [0%nat], false)]. eexists. exists (Range 2 5), 2. eexists.
  split; [vm_compute; reflexivity|]. split; [cbn; lia|]. split.
  - exists (IV 0 3 0%nat). cbn. split; [auto|]. split; [lia|reflexivity].
  - split; [now left|reflexivity].
Qed.
Print Assumptions c33_getDrivers_refuted.

(** On a map without stale handles getDrivers succeeds and returns exactly the drivers of
    the intervals that meet the range and contain it or lie inside it; so it is exact
    when no interval straddles an end of the range. *)
Theorem c33_getDrivers_partial : forall h d b,
  run_calls dm_empty h = DOk d -> ~ dangling d ->
  (forall x, In x (ivs d) -> ilo x <= upper b -> lower b <= ihi x ->
     (ilo x <= lower b /\ upper b <= ihi x) \/ (lower b <= ilo x /\ ihi x <= upper b)) ->
  exists out, getDrivers d b = DOk out /\
    forall n, In n out <-> exists i l, lower b <= i <= upper b /\ seen d i l /\ In n l.
Proof.
  intros h d b E ND St.
  destruct (run_cov h dm_empty dok_empty) as [Q|(d' & Q & [W K] & _)]; [congruence|].
  assert (d' = d) by congruence. subst d'.
  assert (V : allvalid d) by (intros x I G; apply ND; exists x; auto).
  pose proof (lower_upper b) as LU.
  unfold getDrivers, dm_find.
  destruct (collect_spec d b V (ivfind (lower b) (upper b) (ivs d)) []) as (out & Eo & S).
  { intros x I. now apply in_ivfind in I. }
  exists out. split; [exact Eo|]. intros n. rewrite S. split.
  - intros [[]|(x & l & I & _ & G & N)]. apply in_ivfind in I. destruct I as [I O].
    exists (Z.max (ilo x) (lower b)), l. pose proof (proj1 W x I).
    split; [lia|]. split; [|exact N]. exists x. split; [exact I|]. split; [lia|exact G].
  - intros (i & l & Ci & (x & I & C & G) & N). right. exists x, l.
    split; [apply in_ivfind; split; [exact I|lia]|]. split; [|auto].
    pose proof (proj1 W x I) as Nx. specialize (St x I). unfold contains.
    assert (L : lower (Range (ilo x) (ihi x)) = ilo x) by (unfold lower; cbn; lia).
    assert (R : upper (Range (ilo x) (ihi x)) = ihi x) by (unfold upper; cbn; lia).
    rewrite L, R, !andb_true_iff, !Z.leb_le. lia.
Qed.
Print Assumptions c33_getDrivers_partial.

(** Whatever the overlap, nothing outside the range is returned. *)
Theorem c33_getDrivers_sound : forall h d b out n,
  run_calls dm_empty h = DOk d -> ~ dangling d -> getDrivers d b = DOk out -> In n out ->
  exists i l, lower b <= i <= upper b /\ seen d i l /\ In n l.
Proof.
  intros h d b out n E ND Q I.
  destruct (run_cov h dm_empty dok_empty) as [Q'|(d' & Q' & [W K] & _)]; [congruence|].
  assert (d' = d) by congruence. subst d'.
  assert (V : allvalid d) by (intros x J G; apply ND; exists x; auto).
  pose proof (lower_upper b) as LU. unfold getDrivers, dm_find in Q.
  destruct (collect_spec d b V (ivfind (lower b) (upper b) (ivs d)) []) as (out' & Eo & S).
  { intros x J. now apply in_ivfind in J. }
  assert (Q2 : DOk out' = DOk out) by (rewrite <- Eo; exact Q).
  inversion Q2; subst out'.
  apply S in I. destruct I as [[]|(x & l & J & _ & G & N)]. apply in_ivfind in J.
  destruct J as [J O]. exists (Z.max (ilo x) (lower b)), l. pose proof (proj1 W x J).
  split; [lia|]. split; [|exact N]. exists x. split; [exact J|]. split; [lia|exact G].
Qed.
Print Assumptions c33_getDrivers_sound.

(** forEachDriverInterval, the other query, visits exactly the intervals that share a
    bit with the range. *)
Theorem c33_each_interval_exact : forall h d b,
  run_calls dm_empty h = DOk d -> ~ dangling d ->
  exists out, forEachDriverInterval d b = DOk out /\
    forall i n, lower b <= i <= upper b ->
      ((exists l, seen d i l /\ In n l) <->
       exists r l, In (r, l) out /\ lower r <= i <= upper r /\ In n l).
Proof.
  intros h d b E ND.
  destruct (run_cov h dm_empty dok_empty) as [Q|(d' & Q & [W K] & _)]; [congruence|].
  assert (d' = d) by congruence. subst d'.
  assert (V : allvalid d) by (intros x I G; apply ND; exists x; auto).
  unfold forEachDriverInterval, dm_find.
  destruct (each_interval_spec d V (ivfind (lower b) (upper b) (ivs d))) as (out & Eo & S).
  { intros x I. now apply in_ivfind in I. }
  exists out. split; [exact Eo|]. intros i n Ci. split.
  - intros (l & (x & I & C & G) & N). exists (Range (ilo x) (ihi x)), l. split.
    + apply S. exists x. split; [apply in_ivfind; split; [exact I|lia]|auto].
    + unfold lower, upper; cbn [rleft rright]. split; [lia|exact N].
  - intros (r & l & I & C & N). apply S in I. destruct I as (x & I & -> & G).
    apply in_ivfind in I. destruct I as [I O]. exists l. split; [|exact N].
    pose proof (proj1 W x I). unfold lower, upper in C; cbn [rleft rright] in C.
    exists x. split; [exact I|]. split; [lia|exact G].
Qed.
Print Assumptions c33_each_interval_exact.

Example c33_ex :
  match run_calls dm_empty [(Range 0 3, [0%nat], false); (Range 4 7, [1%nat], false)] with
  | DOk d => (getDrivers d (Range 0 7), getDrivers d (Range 2 3), getDrivers d (Range 3 4))
             = (DOk [0%nat; 1%nat], DOk [0%nat], DOk [])
  | DErr _ => False
  end.
Proof. vm_compute. reflexivity. Qed.
