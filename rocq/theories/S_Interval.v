(** Specification of interval maps, independent of the model's operations: the bits
    an interval map covers, and what it means to be a well-formed map. *)
From Verif Require Import Base M_Range M_Interval.
Local Open Scope Z_scope.

(** Bit [i] lies in the entry / in the map. *)
Definition inside {V} (x : iv V) (i : Z) : Prop := ilo x <= i <= ihi x.
Definition covers {V} (m : list (iv V)) (i : Z) : Prop := exists x, In x m /\ inside x i.

(** No entry is empty. *)
Definition nonempty_ivs {V} (m : list (iv V)) : Prop := forall x, In x m -> ilo x <= ihi x.

(** Iteration order of an interval map: by lower bound. *)
Definition by_lower {V} (m : list (iv V)) : Prop :=
  forall p x q y r, m = p ++ x :: q ++ y :: r -> ilo x <= ilo y.

(** Any two entries of the map (at different positions) share no bit, and the earlier
    one is below the later one. *)
Definition disjoint_ivs {V} (m : list (iv V)) : Prop :=
  forall p x q y r, m = p ++ x :: q ++ y :: r -> ihi x < ilo y.

(** Any two entries are at least one bit apart, as after coalescing. *)
Definition separated {V} (m : list (iv V)) : Prop :=
  forall p x q y r, m = p ++ x :: q ++ y :: r -> ihi x + 1 < ilo y.

(** Histories: a sequence of insertions / of addCuts calls. *)
Definition vt_run (t : vtracker) (ops : list (nat * range * nat)) : vtracker :=
  fold_left (fun t o => vt_insert t (fst (fst o)) (snd (fst o)) (snd o)) ops t.

Definition cut_run (width : nat -> N) (g : registry) (ops : list (nat * list N)) : registry :=
  fold_left (fun g o => addCuts width g (fst o) (snd o)) ops g.
