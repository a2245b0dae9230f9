(** Specification for commands on a loaded netlist. *)
From Coq Require Import Ascii String Sorted.
From Verif Require Import Base M_Graph M_Text M_Serial M_Report M_Cli.
Notation length := List.length.

(** The same answer: the same failure, the same report or DOT text, or a table with the same
    header and the same rows, each as often. *)
Inductive same_answer : cres output -> cres output -> Prop :=
| SA_table h t t' : Permutation t t' -> same_answer (COk (OTable h t)) (COk (OTable h t'))
| SA_reports l : same_answer (COk (OReports l)) (COk (OReports l))
| SA_dot f x : same_answer (COk (ODot f x)) (COk (ODot f x))
| SA_msg m : same_answer (CMsg m) (CMsg m)
| SA_bad : same_answer CBad CBad.

Section SLoad.
Variable cval : Type.
Variable g : nlg cval.
(** IDs grow along the node list; IDs are consecutive from a start. *)
Definition Increasing : Prop := StronglySorted Z.lt (map (lid g) (gnodes (lg g))).
Definition Numbered (start : Z) : Prop :=
  forall i n, nth_error (gnodes (lg g)) i = Some n -> lid g n = (start + Z.of_nat i)%Z.
End SLoad.
Arguments Increasing {cval} g.
Arguments Numbered {cval} g start.

(** Commands whose rows keep their order: all but --fan-in, --sensitivity,
    --constant-drivers and --drivers (after aliasing). *)
Definition keeps_order (o : options) : Prop :=
  given (o_registers o) || given (o_loops o) || given (o_dot o) || given (o_find o) || given (o_findre o) || given (o_fanout o) = true \/
  (o_fanin o = None /\ o_sens o = None /\ o_const o = None /\ o_drivers o = None).
