(** Model of source/DriverMap.hpp and of the interval bookkeeping of
    source/ValueTracker.cpp: addDrivers after the slot has been found (76-284),
    getDrivers (286-315) and forEachDriverInterval (ValueTracker.hpp 109-125).

    One driver map is the interval map (bounds to handle) and the manager of the driver
    lists.  A driver list is a set of DriverInfo, whose equality looks at the node only
    (DriverMap.hpp 25-27); here it is a list of node ids, [dunion] being
    unordered_set::insert of a range.  The [lsp] pointer kept beside each node is not
    modelled.  Slot lookup and locking are in [M_Slots.v].

    Errors: [EHandle] a failed assertion of ExternalManager::get (stale handle),
    [EAssert] the assertions at 199 and 264, [ESlot] a free list entry out of range,
    [EFuel] the model ran out of fuel. *)
From Verif Require Import Base M_Range M_Interval M_Heap.
Local Open Scope Z_scope.

Inductive derr := EHandle | EAssert | ESlot | EFuel.
Inductive dres (A : Type) := DOk (a : A) | DErr (e : derr).
Arguments DOk {A} _.
Arguments DErr {A} _.

Definition dbind {A B} (r : dres A) (f : A -> dres B) : dres B :=
  match r with DOk a => f a | DErr e => DErr e end.
Notation "'do' p <- r ; e" := (dbind r (fun p => e)) (at level 200, p pattern, r at level 100).

Definition dlist := list nat.

(** unordered_set::insert(first, last) on nodes. *)
Definition dunion (old new : dlist) : dlist :=
  fold_left (fun s n => if existsb (Nat.eqb n) s then s else s ++ [n]) new old.

Record dmap := DM { ivs : list (iv nat); lists : mgr dlist }.
Definition dm_empty : dmap := DM [] mgr_empty.

(** addDriverList, DriverMap.hpp 70-74 (allocate, then assign). *)
Definition addDriverList (d : dmap) (l : dlist) : dres (dmap * nat) :=
  match allocate (lists d) l with
  | Some (m, h) => DOk (DM (ivs d) m, h)
  | None => DErr ESlot
  end.

(** getDriverList, DriverMap.hpp 77-84. *)
Definition getDriverList (d : dmap) (h : nat) : dres dlist :=
  match get (lists d) h with Some l => DOk l | None => DErr EHandle end.

(** Writing the list through the reference returned by getDriverList. *)
Definition setDriverList (d : dmap) (h : nat) (l : dlist) : dres dmap :=
  match put (lists d) h l with Some m => DOk (DM (ivs d) m) | None => DErr EHandle end.

(** insert, DriverMap.hpp 87-90. *)
Definition dm_insert (d : dmap) (b : range) (h : nat) : dmap :=
  DM (ins (IV (fst (toPair b)) (snd (toPair b)) h) (ivs d)) (lists d).

(** find, DriverMap.hpp 113-116. *)
Definition dm_find (d : dmap) (b : range) : list (iv nat) :=
  ivfind (fst (toPair b)) (snd (toPair b)) (ivs d).

(** erase(iterator), DriverMap.hpp 125-128. *)
Definition dm_erase (d : dmap) (x : iv nat) : dmap := DM (iverase x (ivs d)) (lists d).

(** erase(handle), DriverMap.hpp 136. *)
Definition dm_erase_handle (d : dmap) (h : nat) : dres dmap :=
  match erase (lists d) h with Some m => DOk (DM (ivs d) m) | None => DErr EHandle end.

(** What one iteration of the loop at ValueTracker.cpp 83-275 does: return, look the
    bounds up again, or go to the next hit. *)
Inductive outcome := Return (d : dmap) | Again (d : dmap) (b : range) | Skip.

(** bounds.left = itBounds.second + 1 and the test of 182-189 / 222-229. *)
Definition advance (d : dmap) (b : range) (second : Z) : outcome :=
  let b1 := Range (second + 1) (rright b) in
  if rright b1 <? rleft b1 then Return d else Again d b1.

Definition body (merge : bool) (dl : dlist) (d : dmap) (b : range) (it : iv nat) : dres outcome :=
  let ib := Range (ilo it) (ihi it) in
  let existingHandle := ival it in
  (* 90-104 *)
  if range_eqb ib b then
    do existing <- getDriverList d existingHandle;
    do d1 <- setDriverList d existingHandle (dunion (if merge then existing else []) dl);
    DOk (Return d1)
  (* 110-145 *)
  else if contains ib b then
    let d0 := dm_erase d it in
    let d1 := if ilo it <? lower b
              then dm_insert d0 (Range (ilo it) (lower b - 1)) existingHandle else d0 in
    let d2 := if upper b <? ihi it
              then dm_insert d1 (Range (upper b + 1) (ihi it)) existingHandle else d1 in
    if merge then
      do existing <- getDriverList d2 existingHandle;
      do (d3, newHandle) <- addDriverList d2 (dunion existing dl);
      DOk (Return (dm_insert d3 b newHandle))
    else
      do (d3, newHandle) <- addDriverList d2 dl;
      DOk (Return (dm_insert d3 b newHandle))
  (* 152-190 *)
  else if contains b ib then
    if negb merge then
      let d1 := dm_erase d it in
      do d2 <- (if valid (lists d1) existingHandle then dm_erase_handle d1 existingHandle
                else DOk d1);
      DOk (Again d2 b)
    else
      do existing <- getDriverList d existingHandle;
      do d1 <- setDriverList d existingHandle (dunion existing dl);
      if lower b <? ilo it then
        do (d2, newHandle) <- addDriverList d1 dl;
        DOk (advance (dm_insert d2 (Range (lower b) (ilo it - 1)) newHandle) b (ihi it))
      else DOk (advance d1 b (ihi it))
  (* 195-230 *)
  else if (ilo it <=? lower b) && (lower b <=? ihi it) then
    let d0 := dm_erase d it in
    if negb (ilo it <? lower b) then DErr EAssert
    else
      let d1 := dm_insert d0 (Range (ilo it) (lower b - 1)) existingHandle in
      if negb merge then
        do (d2, newHandle) <- addDriverList d1 dl;
        DOk (advance (dm_insert d2 (Range (lower b) (ihi it)) newHandle) b (ihi it))
      else
        do existing <- getDriverList d1 existingHandle;
        do (d2, newHandle) <- addDriverList d1 (dunion existing dl);
        DOk (advance (dm_insert d2 (Range (lower b) (ihi it)) newHandle) b (ihi it))
  (* 235-271 *)
  else if (ilo it <=? upper b) && (upper b <=? ihi it) then
    let d0 := dm_erase d it in
    do (d1, leftHandle) <- addDriverList d0 dl;
    do d2 <- (if negb merge then DOk (dm_insert d1 b leftHandle)
              else
                let d3 := dm_insert d1 (Range (lower b) (ilo it - 1)) leftHandle in
                do existing <- getDriverList d3 existingHandle;
                do (d4, middleHandle) <- addDriverList d3 (dunion existing dl);
                DOk (dm_insert d4 (Range (ilo it) (upper b)) middleHandle));
    if negb (upper b <? ihi it) then DErr EAssert
    else DOk (Return (dm_insert d2 (Range (upper b + 1) (ihi it)) existingHandle))
  (* 274 *)
  else DOk Skip.

(** The loop and lines 277-279; [its] is what is left of the current overlap iteration. *)
Fixpoint add_loop (fuel : nat) (merge : bool) (dl : dlist) (d : dmap) (b : range)
    (its : list (iv nat)) : dres dmap :=
  match fuel with
  | O => DErr EFuel
  | S f =>
      match its with
      | [] => do (d1, newHandle) <- addDriverList d dl; DOk (dm_insert d1 b newHandle)
      | it :: rest =>
          do r <- body merge dl d b it;
          match r with
          | Return d1 => DOk d1
          | Again d1 b1 => add_loop f merge dl d1 b1 (dm_find d1 b1)
          | Skip => add_loop f merge dl d b rest
          end
      end
  end.

(** addDrivers, ValueTracker.cpp 73-284: bounds normalised at 76.  Every iteration
    either returns or leaves fewer entries overlapping the bounds, so the number of
    entries bounds the iterations. *)
Definition addDrivers (d : dmap) (b : range) (dl : dlist) (merge : bool) : dres dmap :=
  let b1 := Range (lower b) (upper b) in
  add_loop (2 + length (ivs d)) merge dl d b1 (dm_find d b1).

(** getDrivers, ValueTracker.cpp 286-315, for a symbol with a slot. *)
Fixpoint collect_drivers (d : dmap) (b : range) (its : list (iv nat)) (acc : dlist) : dres dlist :=
  match its with
  | [] => DOk acc
  | it :: rest =>
      let ib := Range (ilo it) (ihi it) in
      if contains ib b || contains b ib then
        do l <- getDriverList d (ival it); collect_drivers d b rest (dunion acc l)
      else collect_drivers d b rest acc
  end.
Definition getDrivers (d : dmap) (b : range) : dres dlist := collect_drivers d b (dm_find d b) [].

(** forEachDriverInterval, ValueTracker.hpp 109-125: the calls of [fn]. *)
Fixpoint each_interval (d : dmap) (its : list (iv nat)) : dres (list (range * dlist)) :=
  match its with
  | [] => DOk []
  | it :: rest =>
      do l <- getDriverList d (ival it);
      do r <- each_interval d rest;
      DOk ((Range (ilo it) (ihi it), l) :: r)
  end.
Definition forEachDriverInterval (d : dmap) (b : range) : dres (list (range * dlist)) :=
  each_interval d (dm_find d b).
