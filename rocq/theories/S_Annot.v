(** Specification vocabulary for edge annotations. *)
From Verif Require Import Base M_Graph M_Range M_Netlist M_Annot.

(** Bit [i] of a range. *)
Definition bit_in (r : range) (i : Z) : Prop := (lower r <= i <= upper r)%Z.

(** Annotations of the edges a -> b, oldest first. *)
Definition pair_ann (nl : netlist) (a b : nat) : list eattr :=
  map (fun e => eatt nl (eid e)) (filter (to b) (outs (nst (ng nl) a))).

(** Some edge a -> b is annotated with [s] and covers every bit of [P]. *)
Definition Covered (nl : netlist) (a b : nat) (s : str) (P : Z -> Prop) : Prop :=
  exists e, In e (outs (nst (ng nl) a)) /\ etgt e = b /\
    asym (eatt nl (eid e)) = Some s /\ forall i, P i -> bit_in (abounds (eatt nl (eid e))) i.

(** The bits a call stands for: those requested, cut down to the source node's own
    bounds when the two overlap. *)
Definition wanted (nl : netlist) (a : nat) (r : range) (i : Z) : Prop :=
  bit_in r i /\
  forall nb, nbounds (ninf nl a) = Some nb -> (exists j, bit_in r j /\ bit_in nb j) -> bit_in nb i.

Definition on_pair (a b : nat) (d : dep) : Prop :=
  match d with DPlain x y => x = a /\ y = b | DDep x y _ _ _ => x = a /\ y = b end.
