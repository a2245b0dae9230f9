(** Model of include/netlist/DriverBitRange.hpp and of the part of
    slang::ConstantRange (external) it relies on: left/right int32, lower = min,
    upper = max, overlaps and contains on the normalised bounds.

    Arithmetic is on [Z]; an int32 result outside the range is the outcome [None]
    (signed overflow is undefined behaviour in C++). *)
From Verif Require Import Base.
Local Open Scope Z_scope.

Record range := Range { rleft : Z; rright : Z }.

Definition int32_min : Z := -2147483648.
Definition int32_max : Z := 2147483647.
Definition int32 (z : Z) : Prop := int32_min <= z <= int32_max.
Definition is_int32 (z : Z) : bool := (int32_min <=? z) && (z <=? int32_max).

(** ConstantRange::lower/upper (external). *)
Definition lower (r : range) : Z := Z.min (rleft r) (rright r).
Definition upper (r : range) : Z := Z.max (rleft r) (rright r).

(** ConstantRange::operator== (external): field-wise. *)
Definition range_eqb (a b : range) : bool := (rleft a =? rleft b) && (rright a =? rright b).

(** ConstantRange::overlaps (external). *)
Definition overlaps (a b : range) : bool := (lower a <=? upper b) && (lower b <=? upper a).

(** ConstantRange::contains(ConstantRange) (external). *)
Definition contains (a b : range) : bool := (lower a <=? lower b) && (upper b <=? upper a).

(** int32 addition: [None] on overflow. *)
Definition add32 (a b : Z) : option Z := if is_int32 (a + b) then Some (a + b) else None.

(** toPair, DriverBitRange.hpp 17-19. *)
Definition toPair (r : range) : Z * Z := (lower r, upper r).

(** isContiguousWith, 23-25, with the two int32 additions; the second is evaluated
    only if the first comparison holds (short circuit). *)
Definition isContiguousWith (a b : range) : option bool :=
  match add32 (upper a) 1 with
  | None => None
  | Some u => if lower b <=? u then
                match add32 (upper b) 1 with
                | None => None
                | Some v => Some (lower a <=? v)
                end
              else Some false
  end.

(** unionWith, 29-32; [None]: overflow or failed assertion. *)
Definition unionWith (a b : range) : option range :=
  match isContiguousWith a b with
  | Some true => Some (Range (Z.min (lower a) (lower b)) (Z.max (upper a) (upper b)))
  | _ => None
  end.

(** intersection, 36-43. *)
Definition intersection (a b : range) : option range :=
  if overlaps a b then Some (Range (Z.max (lower a) (lower b)) (Z.min (upper a) (upper b)))
  else None.
