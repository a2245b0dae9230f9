(** What the nodes of the netlist of a design stand for, and when one of them may feed
    another.  Nothing here mentions nodes being built. *)
From Verif Require Import Base M_Graph M_Range M_Netlist M_Builder M_Slice M_Port M_Flow S_Annot S_Pending S_Netlist S_Slice S_Flow.

Section Spec.
Context {V : Type}.
Variable vzero : V.
Variable resolveBits : bool.
Variable ports : list fport.
Variable conns : list (fconn V).
Variable asgs : list (fasg V).

(** Bits [lo..hi] of a port; positions [lo, hi) of an assignment; a constant. *)
Inductive item := XPort (p : fport) (lo hi : nat) | XAsg (a : fasg V) (lo hi : nat) | XConst.

(** Bit [i] of [s] is an origin of bit [k] of the expression; without resolveAssignBits
    an expression is taken as a whole. *)
Definition origin (e : expr V) (k s i : nat) : Prop :=
  if resolveBits then exists a, In a (nth k (bits vzero e) []) /\ In (s, i) (atom_reads a) else In (s, i) (reads e).
Definition constant_at (e : expr V) (k : nat) : Prop := resolveBits = true /\ exists v, In (AConst v) (nth k (bits vzero e) []).
(** Port bit [k] is one of [lo..hi]; position [k] of an assignment is one of [lo, hi). *)
Definition at_port (lo hi k : nat) : Prop := resolveBits = true -> lo <= k <= hi.
Definition at_asg (lo hi k : nat) : Prop := resolveBits = true -> lo <= k < hi.

Definition item_writes (x : item) (s i : nat) : Prop :=
  match x with
  | XPort p lo hi =>
      (s = fp_sy p /\ lo <= i <= hi /\ in_range (fp_drivers p) true i) \/
      (exists c k, In c conns /\ fc_out c = true /\ fc_port c = fp_id p /\ at_port lo hi k /\ nth_error (lbits (fc_actual c)) k = Some (s, i))
  | XAsg a lo hi => exists k, lo <= k < hi /\ nth_error (lbits (fa_lhs a)) k = Some (s, i)
  | XConst => False
  end.
Definition item_reads (x : item) (s i : nat) : Prop :=
  match x with
  | XPort p lo hi =>
      (s = fp_sy p /\ lo <= i <= hi /\ in_range (fp_drivers p) false i) \/
      (exists c k, In c conns /\ fc_out c = false /\ fc_port c = fp_id p /\ at_port lo hi k /\ origin (fc_actual c) k s i)
  | XAsg a lo hi => exists k, at_asg lo hi k /\ origin (fa_rhs a) k s i
  | XConst => False
  end.
Definition item_constant (x : item) : Prop :=
  match x with
  | XPort p lo hi => exists c k, In c conns /\ fc_out c = false /\ fc_port c = fp_id p /\ at_port lo hi k /\ constant_at (fc_actual c) k
  | XAsg a lo hi => exists k, lo <= k < hi /\ constant_at (fa_rhs a) k
  | XConst => False
  end.
(** [x] writes a bit that [y] reads, or is a constant of [y]. *)
Definition Feeds (x y : item) : Prop :=
  (exists s i, item_writes x s i /\ item_reads y s i) \/ (x = XConst /\ item_constant y).

(** Positions of an assignment that are one range of one variable, and that have the same
    origins, shifted. *)
Definition one_piece (a : fasg V) (lo hi : nat) : Prop :=
  (exists s i, forall k, lo <= k < hi -> nth_error (lbits (fa_lhs a)) k = Some (s, i + (k - lo))) /\
  forall k k', lo <= k < hi -> lo <= k' < hi ->
    (forall s i, In (ABit (Some s) i) (nth k (bits vzero (fa_rhs a)) []) -> k <= i + k' /\ In (ABit (Some s) (i + k' - k)) (nth k' (bits vzero (fa_rhs a)) [])) /\
    (forall e, In (AOpq e) (nth k (bits vzero (fa_rhs a)) []) -> In (AOpq e) (nth k' (bits vzero (fa_rhs a)) [])).
Definition valid_item (x : item) : Prop :=
  match x with
  | XPort p lo hi => In p ports /\ lo <= hi /\ exists a c y, In (a, c, y) (fp_drivers p) /\ a <= lo /\ hi <= c
  | XAsg a lo hi => In a asgs /\ hi <= ew (fa_lhs a) /\
      (if resolveBits then lo < hi /\ one_piece a lo hi else lo = 0 /\ hi = ew (fa_lhs a))
  | XConst => True
  end.

(** The bits that input ports, assignments and outputs of instances drive. *)
Definition input_bits (p : fport) : list (nat * nat) :=
  flat_map (fun d => let '(lo, hi, x) := d in if x : bool then map (fun i => (fp_sy p, lo + i)) (seq 0 (hi + 1 - lo)) else []) (fp_drivers p).
Definition output_bits (c : fconn V) : list (nat * nat) := if fc_out c then lbits (fc_actual c) else [].
Definition all_driven : list (nat * nat) :=
  flat_map input_bits ports ++ flat_map output_bits conns ++ flat_map (fun a => lbits (fa_lhs a)) asgs.
(** Every bit has one driver; assignments name no port. *)
Definition one_driver : Prop := NoDup all_driven.
Definition no_port_names : Prop := forall a s i p, In a asgs -> In (s, i) (lbits (fa_lhs a)) -> In p ports -> s <> fp_id p.

(** [x] can reach [y] through pieces of the design. *)
Inductive Connected (x : item) : item -> Prop :=
| cn_here : Connected x x
| cn_step y z : Feeds x y -> valid_item y -> Connected y z -> Connected x z.

(** [role] says what each node of the netlist stands for: the kind and, for a port, the
    port and the bounds are those of the node, and every edge that is not cut goes from
    a piece to one that it feeds. *)
Definition item_kind (x : item) : kind :=
  match x with XPort _ _ _ => KPort | XAsg _ _ _ => KAssignment | XConst => KConstant end.
Record stands_for (nodes : list (nat * bnode)) (nl : netlist) (role : nat -> item) : Prop := {
  st_node : forall n, hasNode (ng nl) n = true -> valid_item (role n) /\ nkind (ninf nl n) = item_kind (role n) /\
              (forall p lo hi, role n = XPort p lo hi -> nbounds (ninf nl n) = Some (zrange lo hi)) /\
              forall p lo hi, In p ports -> (role n = XPort p lo hi <-> In (n, BPort (fp_id p) (zrange lo hi)) nodes);
  st_has : forall n p lo hi, In p ports -> In (n, BPort (fp_id p) (zrange lo hi)) nodes -> hasNode (ng nl) n = true;
  st_conn : forall a b, Conn nl a b -> hasNode (ng nl) a = true /\ hasNode (ng nl) b = true /\ Feeds (role a) (role b) }.

(** The edges are exactly those, and every position of the design has its node. *)
Definition passes (x y : item) (s i : nat) : Prop := item_writes x s i /\ item_reads y s i.
Record exactly (nl : netlist) (role : nat -> item) : Prop := {
  ex_conn : forall a b, hasNode (ng nl) a = true -> hasNode (ng nl) b = true -> role a <> XConst ->
              (Conn nl a b <-> exists s i, passes (role a) (role b) s i);
  ex_const : forall b, hasNode (ng nl) b = true -> (item_constant (role b) <-> exists a, role a = XConst /\ Conn nl a b);
  ex_asg : forall a k, In a asgs -> k < ew (fa_lhs a) -> exists n lo hi, hasNode (ng nl) n = true /\ role n = XAsg a lo hi /\ lo <= k < hi;
  ex_port : forall p lo hi x i, In p ports -> In (lo, hi, x) (fp_drivers p) -> lo <= i <= hi ->
              exists n a c, hasNode (ng nl) n = true /\ role n = XPort p a c /\ a <= i <= c }.
(** Node [x] passes a bit to node [y]. *)
Definition fed (nl : netlist) (role : nat -> item) (y x : nat) : Prop :=
  hasNode (ng nl) x = true /\ hasNode (ng nl) y = true /\ exists s i, passes (role x) (role y) s i.
(** A bit that an edge is annotated with is passed along it. *)
Definition annotates (nm : nat -> str) (nl : netlist) (role : nat -> item) : Prop :=
  forall a b x i, annotated nl a b x i -> exists s j, x = nm s /\ i = Z.of_nat j /\ passes (role a) (role b) s j.
(** What is passed from a node of a port lies in the range of that node. *)
Definition within_node (role : nat -> item) (a b : nat) : Prop :=
  forall p lo hi, role a = XPort p lo hi -> forall s i, passes (role a) (role b) s i -> lo <= i <= hi.
(** All bits that are driven have an index below the largest int32. *)
Definition small_indices : Prop := forall s i, In (s, i) all_driven -> (Z.of_nat i < int32_max)%Z.
End Spec.
Arguments item : clear implicits.
