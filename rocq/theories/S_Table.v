(** What a table should look like, without the formatter: a line is the cells of its row in
    order, each followed by blanks up to the width of its column. *)
From Verif Require Import Base.

Section STable.
Context {C : Type}.
Variables bytes cols : C -> nat.
Variables blank eol : C.

(** Measures add up over a text. *)
Inductive Total (m : C -> nat) : list C -> nat -> Prop :=
| Tot_nil : Total m [] 0
| Tot_cons c s n : Total m s n -> Total m (c :: s) (m c + n).

(** [Fields gap r ws line]: the cells of [r] laid out in columns of widths [ws], [gap] blanks
    between columns. *)
Inductive Fields (gap : nat) : list (list C) -> list nat -> list C -> Prop :=
| F_none : Fields gap [] [] []
| F_last v k w : Total cols (v ++ repeat blank k) w -> Fields gap [v] [w] (v ++ repeat blank k)
| F_more v k w r ws line : Total cols (v ++ repeat blank k) w -> ws <> [] ->
    Fields gap r ws line ->
    Fields gap (v :: r) (w :: ws) ((v ++ repeat blank k) ++ repeat blank gap ++ line).

(** Where column [c] starts. *)
Fixpoint start (gap : nat) (ws : list nat) (c : nat) : nat :=
  match c, ws with
  | S c', w :: ws' => w + gap + start gap ws' c'
  | _, _ => 0
  end.

(** [w] is the largest of the measures of column [c]. *)
Definition Widest (m : C -> nat) (tab : list (list (list C))) (c w : nat) : Prop :=
  (forall r v, In r tab -> nth_error r c = Some v -> exists n, Total m v n /\ n <= w) /\
  (exists r v, In r tab /\ nth_error r c = Some v /\ Total m v w).

(** The whole table: a list of lines, one per row, all with the same columns. *)
Definition Table (gap : nat) (m : C -> nat) (tab : list (list (list C))) (k : nat) (out : list C) : Prop :=
  exists ws lines, length ws = k /\ out = concat lines /\
    Forall2 (fun r l => exists f, l = f ++ [eol] /\ Fields gap r ws f) tab lines /\
    (forall c, c < k -> exists w, nth_error ws c = Some w /\ Widest m tab c w).
End STable.
