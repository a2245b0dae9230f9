(** Specification of interning: one call at a time, on a plain list without repeats. *)
From Verif Require Import Base M_Netlist M_Intern.

Section Spec.
Variable Rec : Type.
Variable key : Rec -> str.
(** Position of the record with key [k]. *)
Fixpoint pos (l : list Rec) (k : str) : option nat :=
  match l with [] => None | r :: l' => if str_eqb (key r) k then Some 0 else option_map S (pos l' k) end.
Definition seq_intern (l : list Rec) (r : Rec) : list Rec * nat :=
  match pos l (key r) with Some i => (l, i) | None => (l ++ [r], length l) end.
Fixpoint seq_run (l : list Rec) (rs : list Rec) : list Rec * list nat :=
  match rs with
  | [] => (l, [])
  | r :: rs' => let (l1, i) := seq_intern l r in let (l2, is) := seq_run l1 rs' in (l2, i :: is)
  end.

(** A history: thread, argument, result. *)
Definition ihist := list (nat * Rec * nat).
Definition ih_of (h : ihist) (t : nat) : ihist := filter (fun x => Nat.eqb (fst (fst x)) t) h.
Definition ih_arg (x : nat * Rec * nat) : Rec := snd (fst x).
Definition IFinished (s : istate Rec) : Prop := forall t, itodo (ith s t) = [].
End Spec.
Arguments pos {Rec}. Arguments seq_intern {Rec}. Arguments seq_run {Rec}.
Arguments ih_of {Rec}. Arguments ih_arg {Rec}. Arguments IFinished {Rec}.
