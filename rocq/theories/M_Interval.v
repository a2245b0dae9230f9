(** Model of slang::IntervalMap (external; modelled by its contract), of
    source/IntervalMapUtils.hpp, of source/VariableTracker.hpp and of
    source/CutRegistry.hpp.

    An interval map is the list of its entries in iteration order, which is by
    increasing lower bound.  Bounds are on [Z]; int32 overflow of [second + 1] is not
    modelled (bit positions stay far below 2^31 - 1). *)
From Verif Require Import Base M_Range.
Local Open Scope Z_scope.

Record iv (V : Type) := IV { ilo : Z; ihi : Z; ival : V }.
Arguments IV {V} _ _ _.
Arguments ilo {V} _.
Arguments ihi {V} _.
Arguments ival {V} _.

(** IntervalMap::insert (external), after the position of every entry with a lower
    bound that is not larger.  The precondition [left <= right] (an assertion of
    slang) is checked by the callers' models. *)
Fixpoint ins {V} (x : iv V) (m : list (iv V)) : list (iv V) :=
  match m with
  | [] => [x]
  | y :: r => if ilo x <? ilo y then x :: m else y :: ins x r
  end.

(** Two closed intervals share a position. *)
Definition ovl {V} (l u : Z) (x : iv V) : bool := (ilo x <=? u) && (l <=? ihi x).

(** IntervalMap::find (external): the entries overlapping [[l, u]], in map order. *)
Definition ivfind {V} (l u : Z) (m : list (iv V)) : list (iv V) := filter (ovl l u) m.

(** IntervalMap::erase(iterator) (external); the iterator is given by the bounds of
    its entry, the first such entry is removed. *)
Definition same_bounds {V} (x y : iv V) : bool := (ilo x =? ilo y) && (ihi x =? ihi y).
Definition iverase {V} (x : iv V) (m : list (iv V)) : list (iv V) :=
  remove_first (same_bounds x) m.

(** IntervalMap::unionWith (external): insert the interval, coalescing with every
    entry it overlaps or touches.  Only coverage matters to the callers; all values
    of the maps subtracted in this code base are of one kind, so the value of the
    new interval is kept. *)
Definition touch {V} (l u : Z) (x : iv V) : bool := (ilo x <=? u + 1) && (l <=? ihi x + 1).
Definition ivunion {V} (x : iv V) (m : list (iv V)) : list (iv V) :=
  let near := filter (touch (ilo x) (ihi x)) m in
  let far := filter (fun y => negb (touch (ilo x) (ihi x) y)) m in
  ins (IV (fold_left Z.min (map ilo near) (ilo x))
          (fold_left Z.max (map ihi near) (ihi x)) (ival x)) far.

(** IntervalMapUtils::subtractSingle, IntervalMapUtils.hpp 12-53: the loop at 21-48
    with [current], then 50-52. *)
Fixpoint subtract_loop {V} (en : Z) (v : V) (second : list (iv V)) (current : Z)
    (result : list (iv V)) : Z * list (iv V) :=
  match second with
  | [] => (current, result)
  | r :: rest =>
      if ihi r <? current then subtract_loop en v rest current result
      else if en <? ilo r then subtract_loop en v rest current result
      else
        let result1 := if current <? ilo r
                       then ivunion (IV current (Z.min en (ilo r - 1)) v) result
                       else result in
        let current1 := Z.max current (ihi r + 1) in
        if en <=? current1 then (current1, result1)
        else subtract_loop en v rest current1 result1
  end.

Definition subtractSingle {V} (result : list (iv V)) (x : iv V) (second : list (iv V))
    : list (iv V) :=
  let '(current, result1) := subtract_loop (ihi x) (ival x) second (ilo x) result in
  if current <=? ihi x then ivunion (IV current (ihi x) (ival x)) result1 else result1.

(** IntervalMapUtils::difference, IntervalMapUtils.hpp 57-74. *)
Definition difference {V} (first second : list (iv V)) : list (iv V) :=
  match second with
  | [] => first
  | _ => fold_left (fun result x => subtractSingle result x second) first []
  end.

(** VariableTracker.hpp: the concurrent_map from symbols (here: [nat]) to entries is a
    total map, [None] for a symbol without entry. *)
Definition vtracker := nat -> option (list (iv nat)).
Definition vt_empty : vtracker := fun _ => None.

(** insert, VariableTracker.hpp 48-54. *)
Definition vt_insert (t : vtracker) (s : nat) (b : range) (node : nat) : vtracker :=
  let m := match t s with Some m => m | None => [] end in
  upd t s (Some (ins (IV (fst (toPair b)) (snd (toPair b)) node) m)).

(** lookup(symbol, bounds), VariableTracker.hpp 57-70: the first overlapping entry
    whose pair equals the bounds field by field (line 63 compares the ascending pair,
    converted to a ConstantRange, with the bounds as given). *)
Definition vt_lookup (t : vtracker) (s : nat) (b : range) : option nat :=
  match t s with
  | None => None
  | Some m =>
      match find (fun x => range_eqb (Range (ilo x) (ihi x)) b)
                 (ivfind (fst (toPair b)) (snd (toPair b)) m) with
      | Some x => Some (ival x)
      | None => None
      end
  end.

(** lookup(symbol), VariableTracker.hpp 73-82. *)
Definition vt_all (t : vtracker) (s : nat) : list nat :=
  match t s with None => [] | Some m => map ival m end.

(** CutRegistry.hpp: [width s] is symbol.getType().getSelectableWidth(). *)
Definition registry := nat -> option (list N).
Definition reg_empty : registry := fun _ => None.

(** std::sort (insertion sort stands for any sort) and std::unique + erase. *)
Fixpoint ninsert (x : N) (l : list N) : list N :=
  match l with
  | [] => [x]
  | y :: r => if (x <=? y)%N then x :: l else y :: ninsert x r
  end.
Fixpoint nsort (l : list N) : list N :=
  match l with [] => [] | x :: r => ninsert x (nsort r) end.
Fixpoint nunique (l : list N) : list N :=
  match l with
  | [] => []
  | x :: r => match r with
              | [] => [x]
              | y :: _ => if (x =? y)%N then nunique r else x :: nunique r
              end
  end.

(** addCuts, CutRegistry.hpp 20-33. *)
Definition addCuts (width : nat -> N) (g : registry) (s : nat) (cuts : list N) : registry :=
  match cuts with
  | [] => g
  | _ =>
      let set := match g s with Some l => l | None => [] end in
      let pushed := set ++ filter (fun c => (0 <? c) && (c <? width s))%N cuts in
      upd g s (Some (nunique (nsort pushed)))
  end.

(** cutsFor, CutRegistry.hpp 36-40. *)
Definition cutsFor (g : registry) (s : nat) : option (list N) := g s.
