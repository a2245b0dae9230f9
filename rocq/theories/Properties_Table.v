(** C59: tables. *)
From Coq Require Import Ascii String.
From Verif Require Import Base M_Netlist M_Table S_Table P_Table.
Notation length := List.length.

(** ** C59. For rows of the header's arity the output is one line per row (header first);
    every cell stands in full on its line, filled with blanks up to the width of its column,
    which is the size of the largest cell of the column.  A character takes at most as many
    columns as bytes. *)
Theorem c59_table : forall C (bytes cols : C -> nat) (blank eol : C),
  cols blank = 1 -> (forall c, cols c <= bytes c) ->
  forall gap header rows, (forall r, In r rows -> length r = length header) ->
  Table cols blank eol gap bytes (header :: rows) (length header)
    (formatTable bytes cols blank eol gap header rows).
Proof. exact @c59. Qed.
Print Assumptions c59_table.

(** On a line so laid out, the cell of column [c] starts at an offset that only depends on the
    column widths. *)
Theorem c59_offset : forall C (cols : C -> nat) (blank : C), cols blank = 1 ->
  forall gap r ws line c v, Fields cols blank gap r ws line -> nth_error r c = Some v ->
  exists pre post, line = pre ++ v ++ post /\ Total cols pre (start gap ws c).
Proof. exact (fun C cols blank => @fields_at C cols cols blank blank). Qed.
Print Assumptions c59_offset.

(** ASCII text: bytes and columns are the same. *)
Definition one (_ : ascii) : nat := 1.
Definition eol : ascii := "010"%char.
Definition table := formatTable one one " "%char eol 2.
Definition line (s : string) : str := lit s ++ [eol].

Example c59_registers :
  table [lit "Name"; lit "Location"] [[lit "top.q"; lit "a.sv:3:1"]; [lit "t.r"; lit "?"]]
  = line "Name   Location" ++ line "top.q  a.sv:3:1" ++ line "t.r    ?       ".
Proof. vm_compute. reflexivity. Qed.
Example c59_nonvacuous : exists ws lines, length ws = 2 /\
  table [lit "Name"; lit "Bits"] [[lit "m.long"; lit "[0]"]] = concat lines /\
  Forall2 (fun r l => exists f, l = f ++ [eol] /\ Fields one " "%char 2 r ws f)
    [[lit "Name"; lit "Bits"]; [lit "m.long"; lit "[0]"]] lines /\
  nth_error ws 0 = Some 6 /\ nth_error ws 1 = Some 4.
Proof.
  destruct (c59_table ascii one one " "%char eol eq_refl (fun _ => le_n 1) 2 [lit "Name"; lit "Bits"] [[lit "m.long"; lit "[0]"]])
    as (ws & lines & L & O & F & W).
  { intros r [<-|[]]. reflexivity. }
  exists ws, lines. split; [exact L|]. split; [exact O|]. split; [exact F|].
  assert (T : forall s n, Total one s n -> n = length s).
  { induction 1; simpl; auto. }
  assert (G : forall c w u v, Widest one [[lit "Name"; lit "Bits"]; [lit "m.long"; lit "[0]"]] c w ->
     nth_error [lit "Name"; lit "Bits"] c = Some u -> nth_error [lit "m.long"; lit "[0]"] c = Some v ->
     w = Nat.max (length u) (length v)).
  { intros c w u v (A & r & x & Hr & Hx & X) Hu Hv. apply T in X.
    destruct (A _ u (or_introl eq_refl) Hu) as (n1 & T1 & L1). destruct (A _ v (or_intror (or_introl eq_refl)) Hv) as (n2 & T2 & L2).
    apply T in T1. apply T in T2. destruct Hr as [<-|[<-|[]]];
      [pose proof (eq_trans (eq_sym Hu) Hx) as Q|pose proof (eq_trans (eq_sym Hv) Hx) as Q]; injection Q as Q; subst x; lia. }
  destruct (W 0) as (w0 & H0 & W0); [repeat constructor|]. destruct (W 1) as (w1 & H1 & W1); [repeat constructor|].
  rewrite H0, H1. split; f_equal; [apply (G 0 w0 _ _ W0 eq_refl eq_refl)|apply (G 1 w1 _ _ W1 eq_refl eq_refl)].
Qed.

(** Widths are taken in bytes but filled in columns: a column is not always as wide as its
    widest cell shows.  Characters: 0 the blank, 1 the line end, 2 of two bytes and one
    column. *)
Theorem c59_as_wide_as_shown_refuted : ~ (forall C (bytes cols : C -> nat) (blank eol : C),
  cols blank = 1 -> (forall c, cols c <= bytes c) ->
  forall gap header rows, (forall r, In r rows -> length r = length header) ->
  Table cols blank eol gap cols (header :: rows) (length header)
    (formatTable bytes cols blank eol gap header rows)).
Proof.
  intros H.
  assert (L2 : forall c, (fun _ : nat => 1) c <= (if c =? 2 then 2 else 1)). { intros c. simpl. destruct (c =? 2); lia. }
  destruct (H nat (fun c => if c =? 2 then 2 else 1) (fun _ => 1) 0 1 eq_refl L2 2 [[2]] [] (fun r F => match F with end))
    as (ws & lines & L & O & F & W).
  destruct (W 0) as (w & E & _ & r & v & [<-|[]] & Ev & T); [repeat constructor|].
  injection Ev as <-. inversion T as [|c s n T1]; subst. inversion T1; subst.
  destruct ws as [|w0 [|]]; try discriminate. injection E as ->.
  inversion F as [|r0 l0 t0 ls0 (f & -> & Fl) F1]; subst. inversion F1; subst.
  inversion Fl as [|v k w T2|]; subst.
  2:{ match goal with HN : [] <> [] |- _ => congruence end. }
  assert (K : k = 0). { destruct k; auto. simpl in T2. inversion T2 as [|? ? ? T3]; subst. inversion T3. }
  subst k. vm_compute in O. discriminate.
Qed.
Print Assumptions c59_as_wide_as_shown_refuted.
