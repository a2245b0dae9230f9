(** What the Python analyses should list. *)
From Coq Require Import Ascii String Sorted.
From Verif Require Import Base M_Graph S_Graph S_Reach M_Range M_Netlist S_Netlist M_Text M_Serial M_Report S_Query S_Cli.

(** Order of texts by code point. *)
Inductive TextLt : str -> str -> Prop :=
| tl_prefix p c r : TextLt p (p ++ c :: r)
| tl_char p x y r s : (nat_of_ascii x < nat_of_ascii y)%nat -> TextLt (p ++ x :: r) (p ++ y :: s).

Section SPy.
Variable cval : Type.
Variable ctext : cval -> str.
Variable g : nlg cval.
Notation nl := (nl_of cval g).

(** A variable or output port node, and its path. *)
Definition Sink (n : nat) (p : str) : Prop :=
  In n (gnodes (lg g)) /\ ((exists a l b, lnode g n = DVariable a p l b) \/ (exists a l b, lnode g n = DPort a p l DOut b)).
(** Constant [c] of value [x] is behind [n], and no undriven port is. *)
Definition Tied (n c : nat) (x : str) : Prop :=
  ~ Source cval g n /\ c <> n /\ Reach (CombBack nl) n c /\ exists v w l, lnode g c = DConstant v w l /\ x = ctext v.

(** A register and its path. *)
Definition Reg (n : nat) (p : str) : Prop := In n (gnodes (lg g)) /\ exists a l b, lnode g n = DState a p l b.
(** The text that stands for a node: its path, else its name, else kind and ID. *)
Inductive KindText : ndata cval -> str -> Prop :=
| kt_port a p l d b : KindText (DPort a p l d b) (lit "Port")
| kt_var a p l b : KindText (DVariable a p l b) (lit "Variable")
| kt_state a p l b : KindText (DState a p l b) (lit "State")
| kt_assign l : KindText (DAssignment l) (lit "Assignment")
| kt_cond l : KindText (DConditional l) (lit "Conditional")
| kt_case l : KindText (DCase l) (lit "Case")
| kt_const v w l : KindText (DConstant v w l) (lit "Constant")
| kt_merge : KindText DMerge (lit "Merge")
| kt_none : KindText DNone (lit "None").
Definition named_as (d : ndata cval) : option (str * str) :=   (* path, name *)
  match d with
  | DPort a p _ _ _ | DVariable a p _ _ | DState a p _ _ => Some (p, a)
  | _ => None
  end.
Inductive Shown (n : nat) : bool -> str -> Prop :=   (* with a path or a name *)
| sh_path p a : named_as (lnode g n) = Some (p, a) -> p <> [] -> Shown n true p
| sh_name a : named_as (lnode g n) = Some ([], a) -> a <> [] -> Shown n true a
| sh_id k : named_as (lnode g n) = None \/ named_as (lnode g n) = Some ([], []) -> KindText (lnode g n) k ->
    Shown n false (k ++ lit "#" ++ print_int (lid g n)).
Definition ClockText (n : nat) (t : str) : Prop :=
  Shown n true t \/ exists u, Shown n false u /\ t = lit "<" ++ u ++ lit ">".
Inductive EdgeText : edgekind -> str -> Prop :=
| et_none : EdgeText EKNone (lit "None")
| et_pos : EdgeText EKPos (lit "PosEdge")
| et_neg : EdgeText EKNeg (lit "NegEdge")
| et_both : EdgeText EKBoth (lit "BothEdges").
(** The register belongs to the domain of clock text [c] and edge text [e]. *)
Definition InDomain (n : nat) (c e : str) : Prop :=
  (exists s k, Clocks nl n s k /\ ClockText s c /\ EdgeText k e) \/
  ((forall s k, ~ Clocks nl n s k) /\ c = lit "<unclocked>" /\ e = lit "None").

(** An input port node that is not a port of the top module and that nothing drives. *)
Definition TopPort (top p : str) : Prop := exists rest, p = top ++ lit "." ++ rest /\ ~ In "."%char rest.
Definition Undriven (top : str) (n : nat) (p : str) (b : range) : Prop :=
  In n (gnodes (lg g)) /\ (exists a l, lnode g n = DPort a p l DIn b) /\ ~ TopPort top p /\ ins (nst (lg g) n) = [].

(** The text of a driver in driver_lookup.py. *)
Definition Tag (n : nat) (t : str) : Prop :=
  (exists u k, Shown n true u /\ KindText (lnode g n) k /\ t = k ++ lit "(" ++ u ++ lit ")") \/ Shown n false t.
End SPy.

(** Ranges in ascending order with a bit in between; and the bits they hold. *)
Fixpoint Spaced (l : list (Z * Z)) : Prop :=
  match l with
  | [] => True
  | (a, b) :: r => (a <= b)%Z /\ match r with [] => True | (c, _) :: _ => (b + 1 < c)%Z end /\ Spaced r
  end.
Definition Holds (l : list (Z * Z)) (i : Z) : Prop := exists a b, In (a, b) l /\ (a <= i <= b)%Z.

(** Order of the rows of clock_domain_map.py: the unclocked ones last, else by clock and edge. *)
Definition DomainLt (a b : str * str) : Prop :=
  let U := lit "<unclocked>" in
  (fst a <> U /\ fst b = U) \/
  ((fst a = U <-> fst b = U) /\ (TextLt (fst a) (fst b) \/ (fst a = fst b /\ TextLt (snd a) (snd b)))).
(** [l] separated by [sep]. *)
Inductive Joined (sep : str) : list str -> str -> Prop :=
| jo_one x : Joined sep [x] x
| jo_more x l t : Joined sep l t -> Joined sep (x :: l) (x ++ sep ++ t).
(** The label of the bits [hi:lo] of a signal. *)
Inductive BitLabel (s : str) : Z -> Z -> str -> Prop :=
| bl_one i : BitLabel s i i (s ++ lit "[" ++ print_int i ++ lit "]")
| bl_range lo hi : lo <> hi -> BitLabel s lo hi (s ++ lit "[" ++ print_int hi ++ lit ":" ++ print_int lo ++ lit "]").
