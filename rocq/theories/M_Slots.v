(** Slot allocation and vector growth in ValueTracker::addDrivers, source/ValueTracker.cpp
    18-84, with the fields of source/ValueTracker.hpp 50-67.

    Simplifications: concurrent_map operations, fetch_add and the size checks are single
    atomic steps; memory is sequentially consistent; the shared mutex lets a reader in
    whenever no writer holds it (no writer preference); the update of one driver map
    under its slot lock is one step, recorded in a log. slotMutexes and slotAllocators
    always have equal sizes and share one counter. A symbol is a number. *)
From Verif Require Import Base.

(** A call: which drivers vector, which symbol. *)
Record scall := SCall { s_vec : nat; s_sym : nat }.
(** [SMissed] cvisit failed; [SCand c] candidate drawn; [SWon c] inserted, reverse map not
    yet written; [SIdx i] slot known; [SCheck i] shared lock held; [SGrow i] shared lock
    dropped, unique lock wanted; [SGrowing i] unique lock held; [SGrown i] resized;
    [SRelock i] unique lock dropped; [SGo i] shared lock held, slot lock wanted;
    [SBody i] both held; [SDone i] body done, locks held. *)
Inductive spc := SIdle | SMissed | SCand (c : nat) | SWon (c : nat) | SIdx (i : nat)
  | SCheck (i : nat) | SGrow (i : nat) | SGrowing (i : nat) | SGrown (i : nat)
  | SRelock (i : nat) | SGo (i : nat) | SBody (i : nat) | SDone (i : nat).
Record sthread := SThread { spcof : spc; stodo : list scall; srets : list nat }.
Record sstate := SState {
  v2s : list (nat * nat);   (* valueToSlot *)
  s2v : list (nat * nat);   (* slotToValue *)
  nexts : nat;              (* nextSlot *)
  dsize : nat -> nat;       (* drivers.size() of each drivers vector *)
  asize : nat;              (* slotMutexes.size() = slotAllocators.size() *)
  writer : option nat;      (* driversMutex: unique holder *)
  readers : list nat;       (* driversMutex: shared holders *)
  slock : nat -> option nat;(* slotMutexes *)
  slog : list (nat * nat * nat); (* updates done: thread, vector, slot *)
  ub : bool;                (* an element outside a vector was touched *)
  sth : nat -> sthread }.

Fixpoint nget (m : list (nat * nat)) (k : nat) : option nat :=
  match m with [] => None | (k', i) :: r => if Nat.eqb k' k then Some i else nget r k end.

Definition sset (s : sstate) (t : nat) (p : spc) : nat -> sthread :=
  upd (sth s) t (SThread p (stodo (sth s t)) (srets (sth s t))).
Definition sgo (s : sstate) (t : nat) (p : spc) : sstate :=
  SState (v2s s) (s2v s) (nexts s) (dsize s) (asize s) (writer s) (readers s) (slock s)
    (slog s) (ub s) (sset s t p).
Definition sgo_rw (s : sstate) (t : nat) (p : spc) (w : option nat) (r : list nat) : sstate :=
  SState (v2s s) (s2v s) (nexts s) (dsize s) (asize s) w r (slock s) (slog s) (ub s) (sset s t p).

Definition drop (t : nat) (l : list nat) : list nat := filter (fun x => negb (Nat.eqb x t)) l.

(** One step of a call; [None]: finished or blocked. *)
Definition sstep (t : nat) (s : sstate) : option sstate :=
  match stodo (sth s t) with
  | [] => None
  | c :: _ =>
    let v := s_vec c in let x := s_sym c in
    match spcof (sth s t) with
    (* 22-23 *)
    | SIdle => match nget (v2s s) x with
               | Some i => Some (sgo s t (SIdx i))
               | None => Some (sgo s t SMissed)
               end
    (* 28 *)
    | SMissed => Some (SState (v2s s) (s2v s) (S (nexts s)) (dsize s) (asize s) (writer s)
                         (readers s) (slock s) (slog s) (ub s) (sset s t (SCand (nexts s))))
    (* 29-33 *)
    | SCand d => match nget (v2s s) x with
                 | Some i => Some (sgo s t (SIdx i))
                 | None => Some (SState (v2s s ++ [(x, d)]) (s2v s) (nexts s) (dsize s)
                                   (asize s) (writer s) (readers s) (slock s) (slog s)
                                   (ub s) (sset s t (SWon d)))
                 end
    (* 34 *)
    | SWon d => Some (SState (v2s s) (s2v s ++ [(d, x)]) (nexts s) (dsize s) (asize s)
                        (writer s) (readers s) (slock s) (slog s) (ub s) (sset s t (SIdx d)))
    (* 48 *)
    | SIdx i => match writer s with
                | Some _ => None
                | None => Some (sgo_rw s t (SCheck i) None (t :: readers s))
                end
    (* 49-50 *)
    | SCheck i => if Nat.leb (dsize s v) i || Nat.leb (asize s) i
                  then Some (sgo_rw s t (SGrow i) (writer s) (drop t (readers s)))
                  else Some (sgo s t (SGo i))
    (* 51 *)
    | SGrow i => match writer s, readers s with
                 | None, [] => Some (sgo_rw s t (SGrowing i) (Some t) [])
                 | _, _ => None
                 end
    (* 52-63: each vector grows only when the index is outside it *)
    | SGrowing i =>
        Some (SState (v2s s) (s2v s) (nexts s)
                (if Nat.leb (dsize s v) i then upd (dsize s) v (S i) else dsize s)
                (if Nat.leb (asize s) i then S i else asize s)
                (writer s) (readers s) (slock s) (slog s) (ub s) (sset s t (SGrown i)))
    (* 64 *)
    | SGrown i => Some (sgo_rw s t (SRelock i) None (readers s))
    (* 65 *)
    | SRelock i => match writer s with
                   | Some _ => None
                   | None => Some (sgo_rw s t (SGo i) None (t :: readers s))
                   end
    (* 70: slotMutexes[index], then lock *)
    | SGo i => if Nat.leb (asize s) i
               then Some (SState (v2s s) (s2v s) (nexts s) (dsize s) (asize s) (writer s)
                            (readers s) (slock s) (slog s) true (sset s t (SBody i)))
               else match slock s i with
                    | Some _ => None
                    | None => Some (SState (v2s s) (s2v s) (nexts s) (dsize s) (asize s)
                                      (writer s) (readers s) (upd (slock s) i (Some t))
                                      (slog s) (ub s) (sset s t (SBody i)))
                    end
    (* 71-279: slotAllocators[index], drivers[index] and the update *)
    | SBody i => Some (SState (v2s s) (s2v s) (nexts s) (dsize s) (asize s) (writer s)
                         (readers s) (slock s) (slog s ++ [(t, v, i)])
                         (ub s || Nat.leb (dsize s v) i || Nat.leb (asize s) i)
                         (sset s t (SDone i)))
    (* scope exit: slot lock, then shared lock *)
    | SDone i => Some (SState (v2s s) (s2v s) (nexts s) (dsize s) (asize s) (writer s)
                         (drop t (readers s)) (upd (slock s) i None) (slog s) (ub s)
                         (upd (sth s) t (SThread SIdle (tl (stodo (sth s t)))
                                           (srets (sth s t) ++ [i]))))
    end
  end.

Definition sinit (progs : list (list scall)) : sstate :=
  SState [] [] 0 (fun _ => 0) 0 None [] (fun _ => None) [] false
    (fun t => SThread SIdle (nth t progs []) []).
Fixpoint sexec (sched : list nat) (s : sstate) : option sstate :=
  match sched with
  | [] => Some s
  | t :: r => match sstep t s with Some s' => sexec r s' | None => None end
  end.
