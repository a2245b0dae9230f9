(** What the clocks of a register are, from the text of its block. *)
From Verif Require Import Base M_Graph M_Range M_Netlist M_DFA M_Slice M_Port M_Flow M_Proc M_Query
  S_Annot S_Pending S_Netlist S_Slice S_Flow S_Proc S_Prec S_Prec2.

Section Spec.
Context {V : Type}.
Variable resolveBits : bool.
Variable width : nat -> Z.
Variable conns : list (fconn V).

(** [p] writes a bit of a signal that the event list of block [x] names with edge [k]. *)
Definition clocks_block (p : piece V) (x : fproc V) (k : edgekind) : Prop :=
  exists t j, In (t, k) (pr_sens x) /\ piece_writes resolveBits conns p t j /\ (Z.of_nat j < width t)%Z.
(** The events reported for every register are events of its block, each at a node that
    writes the signal, and no event is reported twice. *)
Definition events_right (nl : netlist) (role : nat -> piece V) : Prop :=
  forall n x t lo hi, hasNode (ng nl) n = true -> role n = Register x t lo hi ->
  exists res, getSensitivity nl n = Some res /\ NoDup res /\
    forall m k, In (m, k) res -> k <> EKNone /\ hasNode (ng nl) m = true /\ clocks_block (role m) x k.
(** A port, assignment or connection that writes a clock is reported, if all clocks of the
    block that it writes are of one edge. *)
Definition events_found (nl : netlist) (role : nat -> piece V) : Prop :=
  forall n x t lo hi m z k, hasNode (ng nl) n = true -> role n = Register x t lo hi ->
  hasNode (ng nl) m = true -> role m = Plain z -> clocks_block (role m) x k -> k <> EKNone ->
  (forall k', clocks_block (role m) x k' -> k' = k) ->
  exists res, getSensitivity nl n = Some res /\ In (m, k) res.
(** The same for a clock that is a register of another block or of the same one, if it is
    one register in its whole width. *)
Definition events_divided (nl : netlist) (role : nat -> piece V) : Prop :=
  forall n x t lo hi m y u w k, hasNode (ng nl) n = true -> role n = Register x t lo hi ->
  hasNode (ng nl) m = true -> role m = Register y u 0 w -> (width u = Z.of_nat w + 1)%Z -> In (u, k) (pr_sens x) -> k <> EKNone ->
  (forall k', clocks_block (role m) x k' -> k' = k) ->
  exists res m', getSensitivity nl n = Some res /\ In (m', k) res /\ hasNode (ng nl) m' = true /\ role m' = role m.
End Spec.
