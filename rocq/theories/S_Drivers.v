(** Specification of driver tracking, bit by bit and without intervals or handles. *)
From Verif Require Import Base M_Range M_Interval M_Heap M_Drivers S_Interval S_Annot.
Local Open Scope Z_scope.

(** A call: bounds, drivers, merge flag. *)
Definition call := (range * dlist * bool)%type.

(** The drivers of one bit after a history: [None] while no call covers the bit. *)
Definition bit_step (i : Z) (s : option (list nat)) (c : call) : option (list nat) :=
  let '(b, dl, merge) := c in
  if (Z.min (rleft b) (rright b) <=? i) && (i <=? Z.max (rleft b) (rright b)) then
    match s with
    | Some old => Some (if merge : bool then old ++ dl else dl)
    | None => Some dl
    end
  else s.
Definition bit_drivers (h : list call) (i : Z) : option (list nat) := fold_left (bit_step i) h None.

(** The code: a history of calls on one symbol, from the empty map. *)
Fixpoint run_calls (d : dmap) (h : list call) : dres dmap :=
  match h with
  | [] => DOk d
  | (b, dl, merge) :: r => dbind (addDrivers d b dl merge) (fun d1 => run_calls d1 r)
  end.

(** What is stored for a bit: [seen d i l] when an entry covering the bit has the live
    list [l]. *)
Definition seen (d : dmap) (i : Z) (l : list nat) : Prop :=
  exists x, In x (ivs d) /\ ilo x <= i <= ihi x /\ get (lists d) (ival x) = Some l.

(** A stale entry: its handle refers to no live list. *)
Definition dangling (d : dmap) : Prop :=
  exists x, In x (ivs d) /\ get (lists d) (ival x) = None.
