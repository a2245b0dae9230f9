(** Specifications of the queries. *)
From Coq Require Import Ascii String.
From Verif Require Import Base M_Graph S_Graph S_Reach M_Range M_Netlist S_Netlist M_Query.
Local Open Scope Z_scope.

(** Bit [b] belongs to range [r] (either orientation). *)
Definition InRange (b : Z) (r : range) : Prop :=
  (rleft r <= b <= rright r) \/ (rright r <= b <= rleft r).

(** An edge of the graph annotated with [name] leaving [d] and covering bit [b]. *)
Definition DrivesBit (nl : netlist) (name : str) (d : nat) (b : Z) : Prop :=
  exists e, In d (gnodes (ng nl)) /\ In e (outs (nst (ng nl) d)) /\
            asym (eatt nl (eid e)) = Some name /\ InRange b (abounds (eatt nl (eid e))).

(** Clock-like inputs of one register. *)
Definition Clocks (nl : netlist) (st src : nat) (k : edgekind) : Prop :=
  exists e, In e (ins (nst (ng nl) st)) /\ esrc e = src /\ akind (eatt nl (eid e)) = k /\
            k <> EKNone /\ adis (eatt nl (eid e)) = false.

(** [p] lies strictly below [bb]; [rest] is the part after the separating dot. *)
Definition BelowBy (bb p rest : str) : Prop := p = bb ++ dot :: rest.
Definition DirectPort (inf : ninfo) (rest : str) : Prop := nkind inf = KPort /\ ~ In dot rest.
Definition IsContained (bbs : list str) (inf : ninfo) : Prop :=
  exists p bb, npath inf = Some p /\ In bb bbs /\
    (p = bb \/ exists rest, BelowBy bb p rest /\ ~ DirectPort inf rest).
Definition IsBoundary (bbs : list str) (inf : ninfo) : Prop :=
  exists p bb rest, npath inf = Some p /\ In bb bbs /\ BelowBy bb p rest /\ DirectPort inf rest.
