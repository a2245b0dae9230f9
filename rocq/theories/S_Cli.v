(** What the analysis commands should list. *)
From Coq Require Import Ascii String.
From Verif Require Import Base M_Graph S_Graph M_Range M_Netlist S_Netlist S_Text M_Serial S_Report S_Dot.

(** A path passes if it is in one of the scopes, if there are any, and matches one of the
    patterns, if there are any. *)
Definition Passes (scopes names : list str) (p : str) : Prop :=
  (scopes = [] \/ exists s, In s scopes /\ InScope p s) /\
  (names = [] \/ exists q ts, In q names /\ Lex q ts /\ Matches ts p).

(** Lower case of ASCII. *)
Definition lowered (c : ascii) : ascii :=
  match find (fun p => Ascii.eqb (fst p) c)
          (combine (lit "ABCDEFGHIJKLMNOPQRSTUVWXYZ") (lit "abcdefghijklmnopqrstuvwxyz")) with
  | Some p => snd p
  | None => c
  end.

Section SCli.
Variable cval : Type.
Variable g : nlg cval.

(** The hierarchical path and the location of a node of the graph. *)
Definition Named (n : nat) (p : str) : Prop :=
  In n (gnodes (lg g)) /\
  match lnode g n with
  | DPort _ q _ _ _ | DVariable _ q _ _ | DState _ q _ _ => q = p
  | _ => False
  end.
Definition Unnamed (n : nat) : Prop := forall p, ~ Named n p.
Definition Register (n : nat) : Prop := In n (gnodes (lg g)) /\ exists a b c d, lnode g n = DState a b c d.
Definition LocCell (n : nat) (t : str) : Prop :=
  match data_loc cval (lnode g n) with Some l => LocText cval g l t | None => t = [] end.

(** The first node with a name. *)
Definition First (p : str) (n : nat) : Prop :=
  exists l1 l2, gnodes (lg g) = l1 ++ n :: l2 /\ Named n p /\ forall m, In m l1 -> ~ Named m p.

(** An enumeration of the names. *)
Definition Keys (order : list str) : Prop := NoDup order /\ forall p, In p order <-> exists n, Named n p.

(** A row for a named node. *)
Definition NameRow (n : nat) (r : list str) : Prop := exists p t, Named n p /\ LocCell n t /\ r = [p; t].
End SCli.

From Verif Require Import S_Reach S_Query M_Text M_Path M_Report M_Cli.
(** The clocks and resets gating a node: of the register itself, or of the registers its
    combinational fan-out feeds. *)
Definition Gates (nl : netlist) (n s : nat) (k : edgekind) : Prop :=
  (nkind (ninf nl n) = KState /\ Clocks nl n s k) \/
  (nkind (ninf nl n) <> KState /\
   exists u st, Reach (Comb nl) n u /\ Conn nl u st /\ nkind (ninf nl st) = KState /\ Clocks nl st s k).

Section SCli2.
Variable cval : Type.
Variable ctext : cval -> str.
Variable g : nlg cval.
(** A row for a constant, and the text for a driver. *)
Definition ConstRow (n : nat) (r : list str) : Prop :=
  exists v w l t, lnode g n = DConstant v w l /\ LocText cval g l t /\ r = [ctext v; t].
Inductive Described : ndata cval -> str -> Prop :=
| De_in n p l b : Described (DPort n p l DIn b) (lit "input port " ++ p)
| De_out n p l b : Described (DPort n p l DOut b) (lit "output port " ++ p)
| De_other n p l d b : d <> DIn -> d <> DOut -> Described (DPort n p l d b) (lit "inout port " ++ p)
| De_var n p l b : Described (DVariable n p l b) (lit "variable " ++ p)
| De_state n p l b : Described (DState n p l b) (lit "register " ++ p)
| De_const v w l : Described (DConstant v w l) (lit "constant " ++ ctext v)
| De_assign l : Described (DAssignment l) (lit "assignment")
| De_cond l : Described (DConditional l) (lit "conditional")
| De_case l : Described (DCase l) (lit "case")
| De_merge : Described DMerge (lit "merge")
| De_none : Described DNone (lit "unknown").

Notation nl := (nl_of cval g).
Definition SensRow (x : nat * edgekind) (r : list str) : Prop :=
  exists p t, ((Named cval g (fst x) p) \/ (Unnamed cval g (fst x) /\ p = lit "(unnamed)")) /\
    LocCell cval g (fst x) t /\ r = [p; edgeKindToString (snd x); t].
(** An undriven port behind a node. *)
Definition Source (n : nat) : Prop :=
  exists m, m <> n /\ Reach (CombBack nl) n m /\ nkind (ninf nl m) = KPort /\ ins (nst (ng nl) m) = [].
(** Drivers of bits. *)
Definition DriverRow (d : range * nat) (r : list str) : Prop :=
  exists w t, Described (lnode g (snd d)) w /\ LocCell cval g (snd d) t /\ r = [range_toString (fst d); w; t].
Definition Driving (name : str) (q : range) (ds : list (range * nat)) : Prop :=
  NoDup ds /\ (forall d b, (exists r, In (r, d) ds /\ InRange b r) <-> DrivesBit nl name d b /\ InRange b q) /\
  (forall r d, In (r, d) ds -> exists b, InRange b r).
(** The scope that goes with each combination of selectors (after aliasing). *)
Inductive ScopeOf (o : options) : option (list nat) -> Prop :=
| SO_out x n l : o_fanout o = Some x -> First cval g x n -> (forall m, In m l <-> Reach (Comb nl) n m) -> ScopeOf o (Some l)
| SO_in x n l : o_fanout o = None -> o_fanin o = Some x -> First cval g x n ->
    (forall m, In m l <-> Reach (CombBack nl) n m) -> ScopeOf o (Some l)
| SO_path a b s e p : o_fanout o = None -> o_fanin o = None -> o_from o = Some a -> o_to o = Some b ->
    First cval g a s -> First cval g b e -> hd_error p = Some s -> last p s = e -> NoDup p -> Walk (Conn nl) p -> s <> e ->
    ScopeOf o (Some p)
| SO_all : o_fanout o = None -> o_fanin o = None -> (o_from o = None \/ o_to o = None) -> ScopeOf o None.
Inductive NoScope (o : options) : str -> Prop :=
| NS_name x : (o_fanout o = Some x \/ (o_fanout o = None /\ (o_fanin o = Some x \/
      (o_fanin o = None /\ ((o_from o = Some x /\ o_to o <> None) \/ (o_to o = Some x /\ o_from o <> None)))))) ->
    (forall n, ~ Named cval g n x) -> NoScope o (lit "could not find node: " ++ x)
| NS_path a b s e : o_fanout o = None -> o_fanin o = None -> o_from o = Some a -> o_to o = Some b ->
    First cval g a s -> First cval g b e -> (s = e \/ ~ Reach1 (Conn nl) s e) ->
    NoScope o (lit "no path between " ++ a ++ lit " and " ++ b).
End SCli2.
