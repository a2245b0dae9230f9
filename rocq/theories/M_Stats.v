(** Model of BuildPipeline::recordTaskStats (source/BuildPipeline.cpp 111-132), over any
    number type with the operations of the code.  std::sort (external) is a stable sort. *)
From Verif Require Import Base.

Section Stats.
Context {T : Type}.
Variable zero : T.
Variables add div : T -> T -> T.
Variable of_nat : nat -> T.          (* static_cast<double>(size), the literal 2.0 *)
Variable leb : T -> T -> bool.

(** The fields of BuildProfile that are set. *)
Record stats := Stats { smin : T; smax : T; stotal : T; smean : T; smedian : T }.

Fixpoint sinsert (x : T) (l : list T) : list T :=
  match l with
  | [] => [x]
  | y :: r => if leb x y then x :: l else y :: sinsert x r
  end.
Definition ssort (l : list T) : list T := fold_right sinsert [] l.

(** [SKeep]: the profile is left alone (113-115); [SOob]: an access outside the vector. *)
Inductive sres := SKeep | SOk (s : stats) | SOob.

Definition recordTaskStats (l : list T) : sres :=
  match l with
  | [] => SKeep
  | _ =>
      let v := ssort l in
      let n := length v in
      let total := fold_left add v zero in
      let mid := Nat.div n 2 in
      let med := if Nat.modulo n 2 =? 0
                 then match nth_error v (mid - 1), nth_error v mid with
                      | Some a, Some b => Some (div (add a b) (of_nat 2))
                      | _, _ => None
                      end
                 else nth_error v mid in
      match hd_error v, nth_error v (n - 1), med with
      | Some lo, Some hi, Some m => SOk (Stats lo hi total (div total (of_nat n)) m)
      | _, _, _ => SOob
      end
  end.
End Stats.
