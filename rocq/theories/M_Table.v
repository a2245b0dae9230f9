(** Model of Utilities::formatTable (include/common/Utilities.hpp 32-86).

    Text is a sequence of characters of which only two measures matter: [bytes], what
    std::string::size() counts, and [cols], what fmt counts when it pads (one or two columns
    per code point).  The blank and the line end are characters of the text. *)
From Verif Require Import Base.

Section Table.
Context {C : Type}.
Variables bytes cols : C -> nat.
Variables blank eol : C.

Notation text := (list C).
Notation row := (list text).

(** std::string::size() and fmt's width of a text (external). *)
Definition tsize (s : text) : nat := fold_right (fun c n => bytes c + n) 0 s.
Definition tcols (s : text) : nat := fold_right (fun c n => cols c + n) 0 s.

(** The loop at 52-60 for one column. *)
Definition col_width (header : row) (rows : list row) (c : nat) : nat :=
  fold_left (fun w r => match nth_error r c with
                        | Some v => Nat.max w (tsize v)
                        | None => w
                        end) rows (tsize (nth c header [])).
(** 47-60. *)
Definition widths (header : row) (rows : list row) : list nat :=
  map (col_width header rows) (seq 0 (length header)).

(** fmt "{:<{}}" (external): blanks on the right up to the width, never a cut. *)
Definition pad_right (s : text) (w : nat) : text := s ++ repeat blank (w - tcols s).

(** appendRow, 62-80: the cells from column [c] on; [ws] are their widths. *)
Fixpoint append_cells (padding : nat) (r : row) (c : nat) (ws : list nat) : text :=
  match ws with
  | [] => []
  | w :: ws' =>
      pad_right (match nth_error r c with Some v => v | None => [] end) w ++
      match ws' with [] => [] | _ => repeat blank padding end ++
      append_cells padding r (S c) ws'
  end.
Definition append_row (padding : nat) (ws : list nat) (r : row) : text :=
  append_cells padding r 0 ws ++ [eol].

(** 82-85. *)
Definition formatTable (padding : nat) (header : row) (rows : list row) : text :=
  concat (map (append_row padding (widths header rows)) (header :: rows)).
End Table.
