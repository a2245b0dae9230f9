(** Property C29: handle managers. *)
From Verif Require Import Base M_Heap S_Heap P_Heap.

(** * C29: managers behave as independent stores of values.

    [hrun pool_empty ops] runs any history of constructions, allocations, writes
    through references, erasures, clones, swaps and copy assignments over any number of
    managers.  The contents seen through [get] are those of the by-value store
    [store_run], which has no pointers, slots or free lists. *)
Theorem c29_refines_store : forall (T : Type) ops (p : pool T) l,
  hrun pool_empty ops = Some (p, l) ->
  forall m h, hread p m h = store_run (fun _ _ => None) l m h.
Proof.
  intros T ops p l E.
  apply (hrun_spec ops pool_empty p l (fun _ _ => None) pok_empty); [|exact E].
  intros m h. reflexivity.
Qed.
Print Assumptions c29_refines_store.

(** A handle returned by allocate was not live, is valid, reads back the object, and no
    other handle of any manager changes. *)
Theorem c29_allocate_fresh : forall (T : Type) ops (p p' : pool T) l m x r,
  hrun pool_empty ops = Some (p, l) -> hstep p (HAlloc m x) = Some (p', r) ->
  exists h, r = RHandle h /\ hvalid p m h = false /\ hvalid p' m h = true /\
    hread p' m h = Some x /\
    forall m' h', (m', h') <> (m, h) -> hread p' m' h' = hread p m' h' /\
                                        hvalid p' m' h' = hvalid p m' h'.
Proof.
  intros T ops p p' l m x r E S. pose proof (pok_reach ops p l E) as K.
  destruct (hstep_alloc p p' m x r K S) as (K' & h & -> & N & V & R).
  assert (Rh : hread p' m h = Some x).
  { rewrite R. unfold at2. now rewrite !Nat.eqb_refl. }
  exists h. split; [reflexivity|]. split; [exact V|]. split; [|split; [exact Rh|]].
  - apply hvalid_read; [exact K'|]. rewrite Rh. discriminate.
  - intros m' h' D.
    assert (Q : hread p' m' h' = hread p m' h').
    { rewrite R. unfold at2. destruct (Nat.eqb_spec m' m), (Nat.eqb_spec h' h); cbn; auto.
      subst. congruence. }
    split; [exact Q|]. pose proof (hvalid_read p m' h' K). pose proof (hvalid_read p' m' h' K').
    rewrite Q in H0. destruct (hvalid p m' h'), (hvalid p' m' h'); intuition congruence.
Qed.
Print Assumptions c29_allocate_fresh.

(** Allocation on an existing manager always succeeds: the free list never names a slot
    that is out of range. *)
Theorem c29_allocate_total : forall (T : Type) ops (p : pool T) l m x,
  hrun pool_empty ops = Some (p, l) -> mgrs p m <> None -> hstep p (HAlloc m x) <> None.
Proof. intros T ops p l m x E. apply hstep_alloc_ok. now apply (pok_reach ops p l). Qed.
Print Assumptions c29_allocate_total.

(** Writes and erasures need a valid handle and affect that handle only. *)
Theorem c29_write_local : forall (T : Type) ops (p p' : pool T) l m h o r,
  hrun pool_empty ops = Some (p, l) ->
  (exists x, o = HSet m h x) \/ o = HErase m h ->
  hstep p o = Some (p', r) ->
  hvalid p m h = true /\
  hread p' m h = match o with HSet _ _ x => Some x | _ => None end /\
  forall m' h', (m', h') <> (m, h) -> hread p' m' h' = hread p m' h'.
Proof.
  intros T ops p p' l m h o r E O S. pose proof (pok_reach ops p l E) as K.
  assert (A : hvalid p m h = true /\
     forall m' h', hread p' m' h' =
       at2 (hread p) m h (match o with HSet _ _ x => Some x | _ => None end) m' h').
  { destruct O as [[x ->] | ->].
    - destruct (hstep_set p p' m h x r K S) as (_ & V & R). auto.
    - destruct (hstep_erase p p' m h r K S) as (_ & V & R). auto. }
  destruct A as [V R]. split; [exact V|]. split.
  - rewrite R. unfold at2. now rewrite !Nat.eqb_refl.
  - intros m' h' D. rewrite R. unfold at2.
    destruct (Nat.eqb_spec m' m), (Nat.eqb_spec h' h); cbn; auto. subst. congruence.
Qed.
Print Assumptions c29_write_local.

(** A clone starts with the same contents, and from then on operations on one manager
    leave the other as it was. *)
Theorem c29_clone_independent : forall (T : Type) ops (p p1 : pool T) l m r,
  hrun pool_empty ops = Some (p, l) -> hstep p (HClone m) = Some (p1, r) ->
  exists c, r = RMgr c /\ c <> m /\ (forall h, hread p1 c h = hread p m h) /\
    (forall m' h, m' <> c -> hread p1 m' h = hread p m' h) /\
    forall o p2 r2 k,
      (exists x, o = HAlloc k x) \/ (exists h x, o = HSet k h x) \/ (exists h, o = HErase k h) ->
      hstep p1 o = Some (p2, r2) -> forall m' h, m' <> k -> hread p2 m' h = hread p1 m' h.
Proof.
  intros T ops p p1 l m r E S. pose proof (pok_reach ops p l E) as K.
  destruct (hstep_clone p p1 m r K S) as (K1 & -> & N & R). exists (nmgr p).
  assert (D : nmgr p <> m).
  { cbn [hstep] in S. destruct (mgrs p m) as [v|] eqn:Em; [|discriminate].
    assert (m < nmgr p) by (apply (pok_mgr p K); congruence). lia. }
  split; [reflexivity|]. split; [exact D|]. split; [|split].
  - intros h. rewrite R, Nat.eqb_refl. reflexivity.
  - intros m' h D'. rewrite R. now rewrite (proj2 (Nat.eqb_neq _ _) D').
  - intros o p2 r2 k O S2 m' h D'.
    destruct O as [(x & ->)|[(h0 & x & ->)|(h0 & ->)]].
    + destruct (hstep_alloc p1 p2 k x r2 K1 S2) as (_ & h1 & _ & _ & _ & R2). rewrite R2.
      unfold at2. now rewrite (proj2 (Nat.eqb_neq _ _) D').
    + destruct (hstep_set p1 p2 k h0 x r2 K1 S2) as (_ & _ & R2). rewrite R2.
      unfold at2. now rewrite (proj2 (Nat.eqb_neq _ _) D').
    + destruct (hstep_erase p1 p2 k h0 r2 K1 S2) as (_ & _ & R2). rewrite R2.
      unfold at2. now rewrite (proj2 (Nat.eqb_neq _ _) D').
Qed.
Print Assumptions c29_clone_independent.

(** Copy assignment and swap move whole contents. *)
Theorem c29_assign_swap : forall (T : Type) ops (p p' : pool T) l a b r,
  hrun pool_empty ops = Some (p, l) ->
  (hstep p (HAssign a b) = Some (p', r) ->
   forall m h, hread p' m h = if Nat.eqb m a then hread p b h else hread p m h) /\
  (hstep p (HSwap a b) = Some (p', r) ->
   forall m h, hread p' m h = if Nat.eqb m a then hread p b h
                              else if Nat.eqb m b then hread p a h else hread p m h).
Proof.
  intros T ops p p' l a b r E. pose proof (pok_reach ops p l E) as K. split; intros S.
  - apply (hstep_assign p p' a b r K S).
  - apply (hstep_swap p p' a b r K S).
Qed.
Print Assumptions c29_assign_swap.

(** Handles are reused after erase, in first-erased order; a clone keeps its copy. *)
Example c29_ex :
  match hrun pool_empty
    [HNew; HAlloc 0 10; HAlloc 0 11; HClone 0; HErase 0 1; HErase 0 0; HAlloc 0 12; HSet 1 0 7]
  with
  | Some (p, l) =>
      (map snd l, map (hread p 0) [0; 1; 2], map (hread p 1) [0; 1; 2])
      = ([RMgr 0; RHandle 0; RHandle 1; RMgr 1; RUnit; RUnit; RHandle 1; RUnit],
         [None; Some 12; None], [Some 7; Some 11; None])
  | None => False
  end.
Proof. vm_compute. reflexivity. Qed.

(** Reading or erasing a stale handle is a failed assertion. *)
Example c29_ex_stale :
  hrun pool_empty [HNew; HAlloc 0 10; HErase 0 0; HErase 0 0] = None.
Proof. reflexivity. Qed.
