(** Specification of handle managers: a store maps (manager, handle) to an object, by
    value.  It has no pointers, slots or free lists. *)
From Verif Require Import Base M_Heap.

Definition store (T : Type) := nat -> nat -> option T.

Definition at2 {T} (s : store T) (m h : nat) (v : option T) : store T :=
  fun m' h' => if Nat.eqb m' m && Nat.eqb h' h then v else s m' h'.

(** The effect of an operation that returned [r]. *)
Definition store_step {T} (s : store T) (o : hop T) (r : hret) : store T :=
  match o, r with
  | HAlloc m x, RHandle h => at2 s m h (Some x)
  | HSet m h x, _ => at2 s m h (Some x)
  | HErase m h, _ => at2 s m h None
  | HClone m, RMgr m' => fun a h => if Nat.eqb a m' then s m h else s a h
  | HSwap m1 m2, _ => fun a h => if Nat.eqb a m1 then s m2 h
                                 else if Nat.eqb a m2 then s m1 h else s a h
  | HAssign d m, _ => fun a h => if Nat.eqb a d then s m h else s a h
  | _, _ => s
  end.

(** A result handle or manager is not in use. *)
Definition fresh_result {T} (s : store T) (o : hop T) (r : hret) : Prop :=
  match o, r with
  | HAlloc m _, RHandle h => s m h = None
  | HAlloc _ _, _ => False
  | HNew, RMgr m' => forall h, s m' h = None
  | HNew, _ => False
  | HClone _, RMgr m' => forall h, s m' h = None
  | HClone _, _ => False
  | _, _ => True
  end.

Fixpoint hrun {T} (p : pool T) (ops : list (hop T)) : option (pool T * list (hop T * hret)) :=
  match ops with
  | [] => Some (p, [])
  | o :: r => match hstep p o with
              | None => None
              | Some (p1, x) => match hrun p1 r with
                                | None => None
                                | Some (p2, l) => Some (p2, (o, x) :: l)
                                end
              end
  end.

Definition store_run {T} (s : store T) (l : list (hop T * hret)) : store T :=
  fold_left (fun s ox => store_step s (fst ox) (snd ox)) l s.
