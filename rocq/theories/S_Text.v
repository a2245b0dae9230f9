(** Specifications of glob patterns, scopes and decimal text. *)
From Coq Require Import Ascii String.
From Verif Require Import Base M_Range M_Netlist.

(** ** Globs: tokens and the language of each token *)
Inductive tok := TLit (c : ascii) | TAny | TStar | TRec (lead trail : bool).

(** `**' or `...'. *)
Definition RecWord (w : str) : Prop := w = lit "**" \/ w = lit "...".
Definition StartsRec (w : str) : Prop := exists r v, RecWord r /\ w = r ++ v.
Definition DotRec (w : str) : Prop := exists v, w = "."%char :: v /\ StartsRec v.
Definition opt_dot (b : bool) : str := if b then lit "." else [].

(** How a pattern is read, left to right: a recursive wildcard takes an adjacent dot
    on either side if there is one; otherwise `*', `?' or a literal character. *)
Inductive Lex : str -> list tok -> Prop :=
| lex_nil : Lex [] []
| lex_rec lead r trail p ts :
    RecWord r ->
    (lead = false -> ~ DotRec (r ++ opt_dot trail ++ p)) ->
    (trail = false -> hd_error p <> Some "."%char) ->
    Lex p ts ->
    Lex (opt_dot lead ++ r ++ opt_dot trail ++ p) (TRec lead trail :: ts)
| lex_star p ts : ~ StartsRec ("*"%char :: p) -> Lex p ts -> Lex ("*"%char :: p) (TStar :: ts)
| lex_any p ts : Lex p ts -> Lex ("?"%char :: p) (TAny :: ts)
| lex_lit c p ts : c <> "*"%char -> c <> "?"%char ->
    ~ StartsRec (c :: p) -> ~ DotRec (c :: p) -> Lex p ts -> Lex (c :: p) (TLit c :: ts).

Definition TokLang (t : tok) (s : str) : Prop :=
  match t with
  | TLit c => s = [c]
  | TAny => exists c, c <> "."%char /\ s = [c]
  | TStar => ~ In "."%char s
  | TRec false false => True
  | TRec true true => s = lit "." \/ exists x, s = lit "." ++ x ++ lit "."
  | TRec true false => s = [] \/ exists x, s = lit "." ++ x
  | TRec false true => s = [] \/ exists x, s = x ++ lit "."
  end.
Fixpoint Matches (ts : list tok) (s : str) : Prop :=
  match ts with
  | [] => s = []
  | t :: r => exists a b, s = a ++ b /\ TokLang t a /\ Matches r b
  end.

(** ** Scopes *)
Definition InScope (p s : str) : Prop := p = s \/ exists r, p = s ++ lit "." ++ r.

(** ** Decimal integers *)
Local Open Scope Z_scope.
(** Digit characters '0'..'9' and the value of a digit string. *)
Definition IsDigit (c : ascii) (v : Z) : Prop := 0 <= v <= 9 /\ Z.of_nat (nat_of_ascii c) = 48 + v.
Inductive DigitsVal : Z -> str -> Z -> Prop :=
| dv_nil a : DigitsVal a [] a
| dv_cons a c v s z : IsDigit c v -> DigitsVal (10 * a + v) s z -> DigitsVal a (c :: s) z.
(** A decimal int32 literal with optional minus sign. *)
Definition IntText (s : str) (z : Z) : Prop :=
  int32 z /\
  ((s <> [] /\ DigitsVal 0 s z) \/ exists t, t <> [] /\ s = lit "-" ++ t /\ DigitsVal 0 t (- z)).
(** `path[b]' or `path[h:l]'. *)
Definition RangeText (s path : str) (r : range) : Prop :=
  (exists t b, s = path ++ lit "[" ++ t ++ lit "]" /\ IntText t b /\ r = Range b b) \/
  (exists h l a b, s = path ++ lit "[" ++ h ++ lit ":" ++ l ++ lit "]" /\
     IntText h a /\ IntText l b /\ r = Range a b).
