(** When the names in the instance tree of a design are in scope. *)
From Verif Require Import Base M_Graph M_Range M_Netlist M_Text M_Interval M_Slice M_Port M_Inst M_Flow S_Slice S_Port S_Flow.

Section Spec.
Context {V : Type}.
(** The instance in which a symbol is declared. *)
Variable owner_of : nat -> nat.
(** The variable of a port of instance [i] is declared in it; its output is connected to
    variables that are declared in instance [own]. *)
Definition conn_scoped (own i : nat) (x : @pconn V) : Prop :=
  (forall s, cinternal x = Some s -> owner_of s = i) /\ (forall e s k, cactual x = Some e -> In (s, k) (lbits e) -> owner_of s = own).
(** In symbol [y], of instance [own]. *)
Fixpoint scoped (own : nat) (y : @sym V) : Prop :=
  match y with
  | YGen _ ms | YScope ms => fold_right (fun m P => scoped own m /\ P) True ms
  | YInst i _ _ _ ms cs => (forall x, In x (port_conns cs) -> conn_scoped own i x) /\ fold_right (fun m P => scoped i m /\ P) True ms
  | _ => True
  end.
End Spec.
(** The connections for which cuts are recorded in a traversal, in order. *)
Definition cut_conns {V} (evs : list (@iev V)) : list (@pconn V) := flat_map (fun e => match e with VCuts _ cs => cs | _ => [] end) evs.
