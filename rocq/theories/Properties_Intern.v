(** C34, C43, C44: slots and interning tables under concurrency. *)
From Coq Require Import String.
From Verif Require Import Base M_Netlist M_Intern S_Intern P_Intern M_Slots P_Slots.
Notation length := List.length.
Definition fkey (x : str) : str := x.

(** C43. At every moment of every interleaving of addFile calls no name is stored twice,
    and every call that has returned gave the position of its own argument; read back
    through getFilename while fewer than 2^32-1 names are stored. *)
Theorem c43_add_file_correct : forall progs sched s,
  iexec fkey sched (iinit progs) = Some s ->
  (Z.of_nat (length (entries s)) < NoFile)%Z ->
  NoDup (entries s) /\
  forall t i name j, nth_error (nth t progs []) i = Some name -> nth_error (irets (ith s t)) i = Some j ->
    getFilename (entries s) (toIndex j) = Some name.
Proof.
  intros progs sched s E B. destruct (intern_safe fkey _ _ _ E) as [ND OK]. split.
  - unfold fkey in ND. now rewrite map_id in ND.
  - intros t i name j H1 H2. destruct (OK _ _ _ _ H1 H2) as (r & R1 & R2). unfold fkey in R2. subst r.
    assert (L : j < length (entries s)) by (apply nth_error_Some; congruence).
    unfold getFilename, toIndex, NoFile in *. rewrite Z.mod_small by lia.
    destruct (Z.eqb_spec (Z.of_nat j) 4294967295); [lia|]. now rewrite Nat2Z.id.
Qed.
Print Assumptions c43_add_file_correct.
(** The bound is needed: the index of name number 2^32-1 is the NoFile marker. *)
Theorem c43_marker_collision : forall files name,
  nth_error files (Z.to_nat NoFile) = Some name -> name <> [] ->
  getFilename files (toIndex (Z.to_nat NoFile)) <> Some name.
Proof.
  intros files name _ NE. unfold toIndex. rewrite Z2Nat.id by (unfold NoFile; lia).
  unfold getFilename. change (NoFile mod 4294967296)%Z with NoFile. rewrite Z.eqb_refl. congruence.
Qed.
Print Assumptions c43_marker_collision.
(** Indices never change: what a position holds, it holds for ever. *)
Theorem c43_index_stable : forall s1 s2 progs st1 st2,
  iexec fkey s1 (iinit progs) = Some st1 -> iexec fkey s2 st1 = Some st2 ->
  forall i r, nth_error (entries st1) i = Some r -> nth_error (entries st2) i = Some r.
Proof. exact (entries_stable fkey). Qed.
Print Assumptions c43_index_stable.
(** Linearizable: a finished run gives every caller the answer of some one-at-a-time
    history holding exactly the calls of every thread in program order; the history can
    be cut at any moment so that the first part holds every call returned by then. *)
Theorem c43_linearizable : forall progs s1 s2 st1 st2,
  iexec fkey s1 (iinit progs) = Some st1 -> iexec fkey s2 st1 = Some st2 -> IFinished st2 ->
  exists h1 h2, seq_run fkey [] (map ih_arg (h1 ++ h2)) = (entries st2, map snd (h1 ++ h2)) /\
    (forall t, map ih_arg (ih_of (h1 ++ h2) t) = nth t progs [] /\ map snd (ih_of (h1 ++ h2) t) = irets (ith st2 t)) /\
    forall t, exists o, map snd (ih_of h1 t) = irets (ith st1 t) ++ o /\ length o <= 1.
Proof. exact (intern_realtime fkey). Qed.
Print Assumptions c43_linearizable.
(** No interleaving is stuck. *)
Theorem c43_progress : forall progs sched s, iexec fkey sched (iinit progs) = Some s ->
  (exists t, itodo (ith s t) <> []) -> exists t s', istep fkey t s = Some s'.
Proof. exact (intern_progress fkey). Qed.
Print Assumptions c43_progress.
(** Two threads race on one name: both miss the lock-free visit, one stores. *)
Example c43_nonvacuous :
  match iexec fkey [0;1;0;0;0;0;0;1;1;1;0] (iinit [[lit "a.sv"; lit "a.sv"]; [lit "a.sv"]]) with
  | Some s => entries s = [lit "a.sv"] /\ irets (ith s 0) = [0; 0] /\ irets (ith s 1) = [0]
  | None => False
  end.
Proof. vm_compute. auto. Qed.

(** C44. Exactly one record per hierarchical path; every caller with that path receives
    the position (address) of that record, which never changes. *)
Theorem c44_one_record_per_path : forall progs sched s,
  iexec sr_path sched (iinit progs) = Some s ->
  NoDup (map sr_path (entries s)) /\
  (forall t i r j, nth_error (nth t progs []) i = Some r -> nth_error (irets (ith s t)) i = Some j ->
    exists r', nth_error (entries s) j = Some r' /\ sr_path r' = sr_path r) /\
  (forall t1 i1 r1 j1 t2 i2 r2 j2,
    nth_error (nth t1 progs []) i1 = Some r1 -> nth_error (irets (ith s t1)) i1 = Some j1 ->
    nth_error (nth t2 progs []) i2 = Some r2 -> nth_error (irets (ith s t2)) i2 = Some j2 ->
    (j1 = j2 <-> sr_path r1 = sr_path r2)).
Proof.
  intros progs sched s E. destruct (intern_safe sr_path _ _ _ E) as [ND OK].
  split; [exact ND|]. split; [exact OK|]. intros t1 i1 r1 j1 t2 i2 r2 j2 A1 A2 B1 B2.
  destruct (OK _ _ _ _ A1 A2) as (x & X1 & X2). destruct (OK _ _ _ _ B1 B2) as (y & Y1 & Y2). split.
  - intros <-. congruence.
  - intros EQ. apply (NoDup_nth_error (map sr_path (entries s))); auto.
    + rewrite map_length. apply nth_error_Some. congruence.
    + rewrite !nth_error_map, X1, Y1. simpl. congruence.
Qed.
Print Assumptions c44_one_record_per_path.
Theorem c44_address_stable : forall s1 s2 progs st1 st2,
  iexec sr_path s1 (iinit progs) = Some st1 -> iexec sr_path s2 st1 = Some st2 ->
  forall i r, nth_error (entries st1) i = Some r -> nth_error (entries st2) i = Some r.
Proof. exact (entries_stable sr_path). Qed.
Print Assumptions c44_address_stable.
Theorem c44_linearizable : forall progs s1 s2 st1 st2,
  iexec sr_path s1 (iinit progs) = Some st1 -> iexec sr_path s2 st1 = Some st2 -> IFinished st2 ->
  exists h1 h2, seq_run sr_path [] (map ih_arg (h1 ++ h2)) = (entries st2, map snd (h1 ++ h2)) /\
    (forall t, map ih_arg (ih_of (h1 ++ h2) t) = nth t progs [] /\ map snd (ih_of (h1 ++ h2) t) = irets (ith st2 t)) /\
    forall t, exists o, map snd (ih_of h1 t) = irets (ith st1 t) ++ o /\ length o <= 1.
Proof. exact (intern_realtime sr_path). Qed.
Print Assumptions c44_linearizable.
Theorem c44_progress : forall progs sched s, iexec sr_path sched (iinit progs) = Some s ->
  (exists t, itodo (ith s t) <> []) -> exists t s', istep sr_path t s = Some s'.
Proof. exact (intern_progress sr_path). Qed.
Print Assumptions c44_progress.
(** Two records that differ in name but share a path: the first one stored wins. *)
Example c44_nonvacuous :
  match iexec sr_path [0;1;1;1;1;1;1;0;0;0]
        (iinit [[SymRef (lit "x") (lit "t.u") (0%Z, 1, 1)]; [SymRef (lit "y") (lit "t.u") (0%Z, 2, 1)]]) with
  | Some s => entries s = [SymRef (lit "y") (lit "t.u") (0%Z, 2, 1)] /\ irets (ith s 0) = [0] /\ irets (ith s 1) = [0]
  | None => False
  end.
Proof. vm_compute. auto. Qed.

(** C34. Completed calls got equal slots exactly when their symbols are equal. *)
Theorem c34_slot_unique : forall progs sched s, sexec sched (sinit progs) = Some s ->
  forall t1 i1 c1 r1 t2 i2 c2 r2,
    nth_error (nth t1 progs []) i1 = Some c1 -> nth_error (srets (sth s t1)) i1 = Some r1 ->
    nth_error (nth t2 progs []) i2 = Some c2 -> nth_error (srets (sth s t2)) i2 = Some r2 ->
    (r1 = r2 <-> s_sym c1 = s_sym c2).
Proof. exact c34_unique. Qed.
Print Assumptions c34_slot_unique.
(** No vector element outside the current size is ever touched. *)
Theorem c34_in_bounds : forall progs sched s, sexec sched (sinit progs) = Some s -> ub s = false.
Proof. intros progs sched s E. apply bi_ub. eapply binv_exec; eauto. Qed.
Print Assumptions c34_in_bounds.
(** Two threads are never inside the same slot. *)
Theorem c34_slot_exclusive : forall progs sched s, sexec sched (sinit progs) = Some s ->
  forall t u i, inslot (spcof (sth s t)) = Some i -> inslot (spcof (sth s u)) = Some i -> t = u.
Proof. exact c34_exclusive. Qed.
Print Assumptions c34_slot_exclusive.
(** When all calls have returned, slotToValue is the inverse of valueToSlot. *)
Theorem c34_reverse_map : forall progs sched s, sexec sched (sinit progs) = Some s ->
  (forall t, stodo (sth s t) = []) ->
  forall i x, nget (s2v s) i = Some x <-> nget (v2s s) x = Some i.
Proof. exact c34_reverse. Qed.
Print Assumptions c34_reverse_map.
(** Before that it need not be: a call can return a slot that getSymbol would not find. *)
Example c34_reverse_window :
  match sexec ([0;0;0] ++ repeat 1 10) (sinit [[SCall 0 7]; [SCall 0 7]]) with
  | Some s => srets (sth s 1) = [0] /\ nget (s2v s) 0 = None
  | None => False
  end.
Proof. vm_compute. auto. Qed.
(** No interleaving is stuck. *)
Theorem c34_no_deadlock : forall progs sched s, sexec sched (sinit progs) = Some s ->
  (exists t, stodo (sth s t) <> []) -> exists t s', sstep t s = Some s'.
Proof. exact c34_progress. Qed.
Print Assumptions c34_no_deadlock.
(** A run in which a candidate slot is wasted and two vectors grow. *)
Example c34_nonvacuous :
  match sexec ([0;0;1;1;1;1] ++ repeat 1 9 ++ repeat 0 10 ++ repeat 1 13)
              (sinit [[SCall 0 7]; [SCall 1 7; SCall 0 9]]) with
  | Some s => srets (sth s 0) = [1] /\ srets (sth s 1) = [1; 2] /\ nexts s = 3 /\
              dsize s 0 = 3 /\ dsize s 1 = 2
  | None => False
  end.
Proof. vm_compute. auto 10. Qed.
