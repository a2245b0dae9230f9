(** Specification vocabulary for ports and their connections. *)
From Coq Require Import Sorted NArith.
From Verif Require Import Base M_Graph M_Range M_Netlist M_Annot M_Interval M_Heap M_Drivers M_Pending M_DFA M_Builder M_Slice M_Port
  S_Interval S_Drivers S_DFA S_Builder S_Slice.

(** Driver ranges of a port (first bit, last bit, of an input port) that share no bit. *)
Definition ranges_apart (ds : list (nat * nat * bool)) : Prop :=
  forall p lo hi x q lo' hi' x' r, ds = p ++ (lo, hi, x) :: q ++ (lo', hi', x') :: r -> hi < lo' \/ hi' < lo.
Definition ascending (ds : list (nat * nat * bool)) : Prop := forall lo hi x, In (lo, hi, x) ds -> lo <= hi.

(** Node entries of a port lie within its width. *)
Definition in_port (m : list (iv nat)) (w : nat) : Prop :=
  forall x, In x m -> (0 <= ilo x <= ihi x)%Z /\ (ihi x < Z.of_nat w)%Z.
(** Node [n] of the port carries bit [k]. *)
Definition carries (m : list (iv nat)) (n k : nat) : Prop :=
  exists x, In x m /\ ival x = n /\ (ilo x <= Z.of_nat k <= ihi x)%Z.

(** Cut sets are strictly increasing. *)
Definition reg_sorted (g : registry) : Prop := forall s l, cutsFor g s = Some l -> StronglySorted N.lt l.
Definition has_cut (g : registry) (s c : nat) : Prop := exists l, cutsFor g s = Some l /\ In (N.of_nat c) l.

Section S.
Context {V : Type}.
(** Cuts are taken from the connection [x]: internal symbol [sy], actual [e]. *)
Definition eligible (x : @pconn V) (sy : nat) (e : expr V) : Prop :=
  cactual x = Some e /\ cinternal x = Some sy /\ cintegral x = true /\ cwidth x = ew e.

(** Node [n] is asked to read, or to drive, bit [i] of symbol [s]. *)
Definition reads_bit (l : list (@pact V)) (n s i : nat) : Prop := exists lo hi, In (PRead s lo hi n) l /\ lo <= i <= hi.
Definition drives_bit (l : list (@pact V)) (n s i : nat) : Prop := exists lo hi, In (PDrive s lo hi n) l /\ lo <= i <= hi.
(** A path of the expression covers bit [i] of symbol [s]. *)
Definition visits (visit : expr V -> list path) (e : expr V) (s i : nat) : Prop :=
  exists p, In p (visit e) /\ proot p = Some s /\ plo p <= i <= phi p.

(** No conditional, and no constant conversion, where bits are passed through: every
    boundary comes from a concatenation, a replication, a conversion or a hint. *)
Fixpoint concat_shaped (e : expr V) : Prop :=
  match e with
  | EConcat _ es => fold_right (fun x P => concat_shaped x /\ P) True es
  | ERepl _ _ x => concat_shaped x
  | EConv w _ _ _ fold x => ~ is_const fold w /\ concat_shaped x
  | ECond w simple _ l r _ => ~ (ew l = w /\ ew r = w /\ simple = true)
  | _ => True
  end.
End S.
