(** Model of source/ExternalManager.hpp.

    Two views.  [mgr] holds the objects by value and is what the driver map model
    uses.  [pool] is the pointer-level view: managers hold owning pointers (addresses)
    into a heap of objects, so that deep copies, writes through references and handle
    reuse are modelled as they happen.  Handles are [nat]; the truncation to uint32 at
    2^32 slots is not modelled. *)
From Verif Require Import Base.

Fixpoint set_nth {A} (l : list A) (n : nat) (x : A) : list A :=
  match l, n with
  | [], _ => []
  | _ :: r, O => x :: r
  | y :: r, S k => y :: set_nth r k x
  end.

(** * By value *)
Record mgr (T : Type) := Mgr { slots : list (option T); freeq : list nat }.
Arguments Mgr {T} _ _.
Arguments slots {T} _.
Arguments freeq {T} _.

Definition mgr_empty {T} : mgr T := Mgr [] [].

(** allocate, ExternalManager.hpp 45-54: the front of the FIFO free list, else a new
    slot.  [None]: the free list names a slot out of range (undefined behaviour of
    vector::operator[] at 49). *)
Definition allocate {T} (m : mgr T) (x : T) : option (mgr T * nat) :=
  match freeq m with
  | i :: q => if i <? length (slots m)
              then Some (Mgr (set_nth (slots m) i (Some x)) q, i) else None
  | [] => Some (Mgr (slots m ++ [Some x]) [], length (slots m))
  end.

(** get, 57-70; [None]: a failed assertion. *)
Definition get {T} (m : mgr T) (h : nat) : option T :=
  match nth_error (slots m) h with Some (Some x) => Some x | _ => None end.

(** Assignment through the reference returned by the non-const get, 65-70. *)
Definition put {T} (m : mgr T) (h : nat) (x : T) : option (mgr T) :=
  match get m h with
  | Some _ => Some (Mgr (set_nth (slots m) h (Some x)) (freeq m))
  | None => None
  end.

(** valid, 82-84. *)
Definition valid {T} (m : mgr T) (h : nat) : bool :=
  match nth_error (slots m) h with Some (Some _) => true | _ => false end.

(** erase, 73-79; [None]: a failed assertion. *)
Definition erase {T} (m : mgr T) (h : nat) : option (mgr T) :=
  match get m h with
  | Some _ => Some (Mgr (set_nth (slots m) h None) (freeq m ++ [h]))
  | None => None
  end.

(** * By pointer *)
Record pool (T : Type) := Pool {
  objs : nat -> option T;                  (* heap cells; [None]: not allocated *)
  nobj : nat;                              (* next fresh address *)
  mgrs : nat -> option (list (option nat) * list nat);  (* slots (unique_ptr), freeList *)
  nmgr : nat
}.
Arguments Pool {T} _ _ _ _.
Arguments objs {T} _.
Arguments nobj {T} _.
Arguments mgrs {T} _.
Arguments nmgr {T} _.

Definition pool_empty {T} : pool T := Pool (fun _ => None) 0 (fun _ => None) 0.

Inductive hop (T : Type) :=
| HNew                       (* default constructor *)
| HAlloc (m : nat) (x : T)
| HSet (m h : nat) (x : T)   (* write through get(h) *)
| HErase (m h : nat)
| HClone (m : nat)           (* clone / copy constructor *)
| HSwap (a b : nat)
| HAssign (dst src : nat).   (* copy assignment *)
Arguments HNew {T}.
Arguments HAlloc {T} _ _.
Arguments HSet {T} _ _ _.
Arguments HErase {T} _ _.
Arguments HClone {T} _.
Arguments HSwap {T} _ _.
Arguments HAssign {T} _ _.

Inductive hret := RUnit | RHandle (h : nat) | RMgr (m : nat).

(** copyFrom, 99-121: one new object per non-null slot, in slot order. *)
Fixpoint copy_slots {T} (p : pool T) (l : list (option nat)) : pool T * list (option nat) :=
  match l with
  | [] => (p, [])
  | None :: r => let '(p1, r1) := copy_slots p r in (p1, None :: r1)
  | Some a :: r =>
      let p0 := Pool (upd (objs p) (nobj p) (objs p a)) (S (nobj p)) (mgrs p) (nmgr p) in
      let '(p1, r1) := copy_slots p0 r in (p1, Some (nobj p) :: r1)
  end.

(** Destruction of the objects owned by a slot vector. *)
Definition free_slots {T} (f : nat -> option T) (l : list (option nat)) : nat -> option T :=
  fold_left (fun f o => match o with Some a => upd f a None | None => f end) l f.

Definition with_mgr {T} (p : pool T) (m : nat) (v : list (option nat) * list nat) : pool T :=
  Pool (objs p) (nobj p) (upd (mgrs p) m (Some v)) (nmgr p).

(** One operation; [None]: a failed assertion, or an operation on a manager that does
    not exist. *)
Definition hstep {T} (p : pool T) (o : hop T) : option (pool T * hret) :=
  match o with
  | HNew => Some (Pool (objs p) (nobj p) (upd (mgrs p) (nmgr p) (Some ([], []))) (S (nmgr p)),
                  RMgr (nmgr p))
  | HAlloc m x =>
      match mgrs p m with
      | None => None
      | Some (sl, q) =>
          let p1 := Pool (upd (objs p) (nobj p) (Some x)) (S (nobj p)) (mgrs p) (nmgr p) in
          match q with
          | i :: q1 => if i <? length sl
                       then Some (with_mgr p1 m (set_nth sl i (Some (nobj p)), q1), RHandle i)
                       else None
          | [] => Some (with_mgr p1 m (sl ++ [Some (nobj p)], []), RHandle (length sl))
          end
      end
  | HSet m h x =>
      match mgrs p m with
      | None => None
      | Some (sl, q) =>
          match nth_error sl h with
          | Some (Some a) =>
              Some (Pool (upd (objs p) a (Some x)) (nobj p) (mgrs p) (nmgr p), RUnit)
          | _ => None
          end
      end
  | HErase m h =>
      match mgrs p m with
      | None => None
      | Some (sl, q) =>
          match nth_error sl h with
          | Some (Some a) =>
              Some (with_mgr (Pool (upd (objs p) a None) (nobj p) (mgrs p) (nmgr p)) m
                             (set_nth sl h None, q ++ [h]), RUnit)
          | _ => None
          end
      end
  | HClone m =>
      match mgrs p m with
      | None => None
      | Some (sl, q) =>
          let '(p1, sl1) := copy_slots p sl in
          Some (Pool (objs p1) (nobj p1) (upd (mgrs p1) (nmgr p1) (Some (sl1, q))) (S (nmgr p1)),
                RMgr (nmgr p1))
      end
  | HSwap a b =>
      match mgrs p a, mgrs p b with
      | Some va, Some vb => Some (with_mgr (with_mgr p a vb) b va, RUnit)
      | _, _ => None
      end
  | HAssign dst src =>
      match mgrs p dst, mgrs p src with
      | Some (dl, _), Some (sl, q) =>
          if Nat.eqb dst src then Some (p, RUnit)
          else
            let '(p1, sl1) := copy_slots p sl in
            Some (with_mgr (Pool (free_slots (objs p1) dl) (nobj p1) (mgrs p1) (nmgr p1))
                           dst (sl1, q), RUnit)
      | _, _ => None
      end
  end.

(** What a caller sees through get(h) of manager [m]. *)
Definition hread {T} (p : pool T) (m h : nat) : option T :=
  match mgrs p m with
  | None => None
  | Some (sl, _) => match nth_error sl h with Some (Some a) => objs p a | _ => None end
  end.

Definition hvalid {T} (p : pool T) (m h : nat) : bool :=
  match mgrs p m with
  | None => false
  | Some (sl, _) => match nth_error sl h with Some (Some _) => true | _ => false end
  end.
