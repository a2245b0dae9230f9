(** Specification for whole designs: what the values of a design are, and what makes a
    design well formed.  Nothing here mentions nodes being built. *)
From Verif Require Import Base M_Graph M_Range M_Netlist M_Annot M_Interval M_Heap M_Drivers M_Pending M_DFA M_Builder M_Slice M_Port M_Flow
  S_Reach S_Netlist S_Slice S_Port.

Section Spec.
Context {V : Type}.
Variable vzero : V.
Notation expr := (expr V).
Notation env := (nat -> nat -> V).

(** L-values: variables, constant selects and concatenations of them; their bits, least
    significant first. *)
Fixpoint lvalue (e : expr) : Prop :=
  match e with
  | ELsp _ _ => True
  | EConcat _ es => fold_right (fun x P => lvalue x /\ P) True es
  | _ => False
  end.
Fixpoint lbits (e : expr) : list (nat * nat) :=
  match e with
  | ELsp p w => match proot p with Some s => map (fun i => (s, plo p + i)) (seq 0 w) | None => [] end
  | EConcat _ es => concat (rev (map lbits es))
  | _ => []
  end.
(** The variables and constant selects of an L-value. *)
Fixpoint lpaths (e : expr) : list path :=
  match e with
  | ELsp p _ => [p]
  | EConcat _ es => flat_map lpaths es
  | _ => []
  end.

(** Every reference is as wide as its bounds. *)
Fixpoint paths_ok (e : expr) : Prop :=
  match e with
  | ELsp p w => plo p <= phi p /\ w = phi p + 1 - plo p
  | EDyn p _ ops _ => plo p <= phi p /\ fold_right (fun x P => paths_ok x /\ P) True ops
  | EConcat _ es => fold_right (fun x P => paths_ok x /\ P) True es
  | ERepl _ _ x => paths_ok x
  | EConv _ _ _ _ _ x => paths_ok x
  | ECond _ _ c l r _ => paths_ok c /\ paths_ok l /\ paths_ok r
  | EOther _ _ ops _ => fold_right (fun x P => paths_ok x /\ P) True ops
  end.
(** No conditional operator. *)
Fixpoint flat (e : expr) : Prop :=
  match e with
  | ELsp _ _ => True
  | EDyn _ _ ops _ => fold_right (fun x P => flat x /\ P) True ops
  | EConcat _ es => fold_right (fun x P => flat x /\ P) True es
  | ERepl _ _ x => flat x
  | EConv _ _ _ _ _ x => flat x
  | ECond _ _ _ _ _ _ => False
  | EOther _ _ ops _ => fold_right (fun x P => flat x /\ P) True ops
  end.

Variable resolveBits : bool.
Variable h : hints.
Variable ports : list fport.
Variable conns : list (fconn V).
Variable asgs : list (fasg V).

(** A settled design: each assignment and each connection holds. *)
Definition settled (v : env) : Prop :=
  (forall a, In a asgs -> eval vzero v (fa_lhs a) = eval vzero v (fa_rhs a)) /\
  (forall c, In c conns -> eval vzero v (fc_actual c) = map (v (fc_sy c)) (seq 0 (fc_w c))).

(** The port with [isInputPort] drivers at a bit. *)
Definition in_range (ds : list (nat * nat * bool)) (x : bool) (i : nat) : Prop :=
  exists lo hi, In (lo, hi, x) ds /\ lo <= i <= hi.
(** An input port, or an output of an instance, or an assignment gives the bit its value. *)
Inductive driven (s i : nat) : Prop :=
| driven_port p : In p ports -> fp_sy p = s -> in_range (fp_drivers p) true i -> driven s i
| driven_asg a : In a asgs -> In (s, i) (lbits (fa_lhs a)) -> driven s i
| driven_conn c : In c conns -> fc_out c = true -> In (s, i) (lbits (fc_actual c)) -> driven s i.
(** Bit [i] of port [p] is an input, and the port is not connected: an input of the
    design. *)
Definition free_input (p : fport) (i : nat) : Prop :=
  In p ports /\ in_range (fp_drivers p) true i /\ forall c, In c conns -> fc_out c = false -> fc_port c <> fp_id p.

(** The bits of port symbols that an L-value names: inside one driver of the port. *)
Definition in_driver (e : expr) : Prop :=
  forall q p, In q (lpaths e) -> In p ports -> proot q = Some (fp_sy p) ->
    exists lo hi x, In (lo, hi, x) (fp_drivers p) /\ lo <= plo q /\ phi q <= hi.
(** No cut falls inside a reference of an L-value. *)
Definition uncut (e : expr) : Prop :=
  forall q s l c, In q (lpaths e) -> proot q = Some s -> h s = Some l -> In c l -> ~ plo q < c <= phi q.
(** A cut between two bits of the actual of connection [c] is a cut of the port. *)
Definition cuts_known (c : fconn V) : Prop :=
  forall k s i l, nth_error (lbits (fc_actual c)) k = Some (s, i) -> nth_error (lbits (fc_actual c)) (S k) = Some (s, S i) ->
    h s = Some l -> In (S i) l -> exists l', h (fc_sy c) = Some l' /\ In (S k) l'.
(** Slang's contracts on an expression that is read: references have the width of their
    bounds and name no port; and, when bits are resolved, values have the declared width,
    folding gives the value, and there is no select with a variable index and no sign
    extension where bits are passed through. *)
Definition readable (e : expr) : Prop :=
  paths_ok e /\ (forall s i p, In (s, i) (reads e) -> In p ports -> s <> fp_id p) /\
  (resolveBits = true -> sized vzero e /\ folds_ok vzero e /\ typed (fun _ _ => False) e /\ unsigned_ext e).
(** The parts of an expression that the analysis walks have no conditional operator. *)
Definition walkable (e : expr) : Prop :=
  if resolveBits then forall k x, In (AOpq x) (nth k (bits vzero e) []) -> flat x else flat e.

Record wf_design : Prop := {
  w_hints : sorted_hints h;
  w_ids : NoDup (map fp_id ports);
  w_syms : NoDup (map fp_sy ports);
  w_drivers : forall p, In p ports -> ascending (fp_drivers p) /\ ranges_apart (fp_drivers p);
  (* assignments *)
  w_lhs : forall a, In a asgs -> lvalue (fa_lhs a) /\ typed (fun _ _ => False) (fa_lhs a) /\ NoDup (lbits (fa_lhs a)) /\
            in_driver (fa_lhs a) /\ (resolveBits = false -> uncut (fa_lhs a));
  w_rhs : forall a, In a asgs -> readable (fa_rhs a) /\ walkable (fa_rhs a) /\ ew (fa_lhs a) = ew (fa_rhs a) /\
            forall s i, In (s, i) (reads (fa_rhs a)) -> ~ In (s, i) (lbits (fa_lhs a));
  (* connections *)
  w_conn : forall c, In c conns -> 0 < fc_w c /\ ew (fc_actual c) = fc_w c /\ exists p, In p ports /\
            fp_id p = fc_port c /\ fp_sy p = fc_sy c /\ forall lo hi x, In (lo, hi, x) (fp_drivers p) -> hi < fc_w c /\ x = negb (fc_out c);
  w_in : forall c, In c conns -> fc_out c = false -> readable (fc_actual c);
  w_out : forall c, In c conns -> fc_out c = true -> lvalue (fc_actual c) /\ typed (fun _ _ => False) (fc_actual c) /\
            in_driver (fc_actual c) /\ if resolveBits then cuts_known c else uncut (fc_actual c) }.

(** Two valuations agree on the bits that nothing drives. *)
Definition agree_undriven (v1 v2 : env) : Prop := forall s i, ~ driven s i -> v1 s i = v2 s i.
End Spec.
Arguments driven {V} _ _ _ _ _.
Arguments free_input {V} _ _ _ _.
