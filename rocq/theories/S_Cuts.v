(** When the cuts of a design are recorded in the order of a visit of its instances. *)
From Verif Require Import Base M_Range M_Interval M_Slice M_Port M_Flow S_Slice S_Port S_Flow.

Section Spec.
Context {V : Type}.
(** What recordCutsFromPortConnections sees of a connection of integral types. *)
Definition seen (c : fconn V) : @pconn V := Conn (Some (fc_sy c)) (fc_w c) true (Some (fc_actual c)).
(** The cuts when everything is built: none, or those of the connections in the order of
    the visit (option propCutsAcrossPorts). *)
Definition cuts_of (prop : bool) (symw : nat -> N) (conns : list (fconn V)) : hints :=
  if prop then hints_of (recordCuts symw (fun _ => None) (map seen conns)) else fun _ => None.
(** What an output is connected to is not the inner side of a port of the same or a later
    connection: instances are visited before what they contain. *)
Definition outer_first (conns : list (fconn V)) : Prop :=
  forall p c q s i c', conns = p ++ c :: q -> fc_out c = true -> In (s, i) (lbits (fc_actual c)) -> In c' (c :: q) -> fc_sy c' <> s.
(** The variable of an output port has the width of the port. *)
Definition port_widths (symw : nat -> N) (conns : list (fconn V)) : Prop :=
  forall c, In c conns -> fc_out c = true -> symw (fc_sy c) = N.of_nat (fc_w c).
End Spec.
