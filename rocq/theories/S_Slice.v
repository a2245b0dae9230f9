(** Specification of bit slicing: what each bit of an expression comes from, and the
    value of an expression.  Nothing here mentions slices being built. *)
From Coq Require Import Sorted.
From Verif Require Import Base M_Slice.

Section Spec.
Variable V : Type.
Variable vzero : V.
Notation expr := (expr V).

(** * Origins of a bit *)
Inductive atom :=
| ABit (s : option nat) (i : nat)   (* bit i of a symbol *)
| APad                              (* sign extension *)
| AOpq (e : expr)                   (* any part of e *)
| AConst (v : V).

Definition zip3 {A} (c : A) (l r : list (list A)) : list (list A) :=
  map (fun p => fst p ++ snd p ++ [c]) (combine l r).

(** The origins of every bit, least significant first, as documented: structural
    operators pass bits through, everything else is opaque. *)
Fixpoint bits (e : expr) : list (list atom) :=
  match e with
  | ELsp p w => map (fun i => [ABit (proot p) (plo p + i)]) (seq 0 w)
  | EDyn _ w _ _ => repeat [AOpq e] w
  | EConcat _ es => concat (rev (map bits es))
  | ERepl w None _ => repeat [AOpq e] w
  | ERepl _ (Some n) x => concat (repeat (bits x) (Z.to_nat n))
  | EConv w _ si so fold x =>
      let plain :=
        if w <? ew x then repeat [AOpq e] w
        else bits x ++ repeat [if si && so then APad else AConst vzero] (w - ew x) in
      match fold with
      | Some v => if length v =? w then map (fun b => [AConst b]) v else plain
      | None => plain
      end
  | ECond w simple c l r _ =>
      if (ew l =? w) && (ew r =? w) && simple then zip3 (AOpq c) (bits l) (bits r)
      else repeat [AOpq e] w
  | EOther w fold _ _ =>
      match fold with
      | Some v => if length v =? w then map (fun b => [AConst b]) v else repeat [AOpq e] w
      | None => repeat [AOpq e] w
      end
  end.

(** What a slice list says about bit [k]: the origins given by the sources of the first
    slice that has the bit. *)
Definition atoms_of (k : nat) (s : source V) : list atom :=
  match s with
  | SLsp p lo _ => [ABit (proot p) (plo p + (k - lo))]
  | SPad _ => [APad]
  | SOpq e => [AOpq e]
  | SPort _ _ _ => []
  | SConst v lo _ _ => [AConst (nth (k - lo) v vzero)]
  end.
Fixpoint attr (sl : list (slice V)) (k : nat) : list atom :=
  match sl with
  | [] => []
  | s :: r => if (clo s <=? k) && (k <? chi s) then flat_map (atoms_of k) (srcs s) else attr r k
  end.

(** * Tilings *)
Fixpoint tiled (lo : nat) (sl : list (slice V)) (hi : nat) : Prop :=
  match sl with
  | [] => lo = hi
  | s :: r => clo s = lo /\ clo s < chi s /\ tiled (chi s) r hi
  end.

(** Positions where a slice ends. *)
Definition boundary (sl : list (slice V)) (k : nat) : Prop := exists s, In s sl /\ chi s = k.

(** * Well-typed expressions, as slang builds them: concatenation and replication widths
    add up and a static LSP is as wide as its bounds.  [D] says which selects with a
    variable index (or without a root variable) may occur where bits are passed
    through. *)
Fixpoint typed (D : path -> nat -> Prop) (e : expr) : Prop :=
  match e with
  | ELsp p w => plo p <= phi p /\ w = phi p + 1 - plo p /\ proot p <> None
  | EDyn p w _ _ => plo p <= phi p /\ D p w
  | EConcat w es => w = list_sum (map ew es) /\ fold_right (fun x P => typed D x /\ P) True es
  | ERepl _ None _ => True
  | ERepl w (Some n) x => w = Z.to_nat n * ew x /\ typed D x
  | EConv w _ _ _ _ x => w < ew x \/ typed D x
  | ECond w _ _ l r _ => (ew l = w -> ew r = w -> typed D l /\ typed D r)
  | EOther _ _ _ _ => True
  end.

Definition sorted_hints (h : hints) : Prop := forall s l, h s = Some l -> StronglySorted lt l.

(** Where cut hints fall: positions of [e] that are a hinted cut of a symbol, strictly
    inside the part of the symbol that [e] passes through. *)
Definition is_const (fold : option (list V)) (w : nat) : Prop := exists v, fold = Some v /\ length v = w.
Inductive hcut (h : hints) : expr -> nat -> Prop :=
| HLsp p w s l c : proot p = Some s -> h s = Some l -> In c l -> plo p < c <= phi p ->
    hcut h (ELsp p w) (c - plo p)
| HCat w a x b k : hcut h x k -> hcut h (EConcat w (a ++ x :: b)) (list_sum (map ew b) + k)
| HRep w n x i k : i < Z.to_nat n -> hcut h x k -> hcut h (ERepl w (Some n) x) (i * ew x + k)
| HConv w prop si so fold x k : ~ is_const fold w -> ew x <= w -> hcut h x k ->
    hcut h (EConv w prop si so fold x) k
| HCondL w c l r m k : ew l = w -> ew r = w -> hcut h l k -> hcut h (ECond w true c l r m) k
| HCondR w c l r m k : ew l = w -> ew r = w -> hcut h r k -> hcut h (ECond w true c l r m) k.

(** * Segments *)
Fixpoint seg_tiled (lo : nat) (gs : list (nat * nat)) (hi : nat) : Prop :=
  match gs with
  | [] => lo = hi
  | g :: r => fst g = lo /\ fst g < snd g /\ seg_tiled (snd g) r hi
  end.
Definition inside (g : nat * nat) (s : slice V) : Prop := clo s <= fst g /\ snd g <= chi s.

(** Two positions with no slice boundary of either side between them. *)
Definition together (l r : list (slice V)) (k1 k2 : nat) : Prop :=
  forall c, boundary l c \/ boundary r c -> (c <= k1 <-> c <= k2).

(** A list of noted ranges (symbol, first bit, last bit) has bit [i] of [s]. *)
Definition noted (ns : list (nat * nat * nat)) (s i : nat) : Prop :=
  exists lo hi, In (s, lo, hi) ns /\ lo <= i <= hi.

(** * Values *)
Definition env := nat -> nat -> V.
Definition look (v : env) (p : path) (i : nat) : V :=
  match proot p with Some s => v s i | None => vzero end.

Definition resize (sign : bool) (w : nat) (l : list V) : list V :=
  firstn w l ++ repeat (if sign then last l vzero else vzero) (w - length l).

(** Least significant bit first.  Extension repeats the sign bit for a signed operand,
    or, for a conversion propagated from the context, when the propagated type is signed
    (IEEE 1800 11.8.2). *)
Fixpoint eval (v : env) (e : expr) : list V :=
  match e with
  | ELsp p w => map (fun i => look v p (plo p + i)) (seq 0 w)
  | EDyn p _ ops f => f (map (look v p) (seq (plo p) (phi p + 1 - plo p))) (map (eval v) ops)
  | EConcat _ es => concat (rev (map (eval v) es))
  | ERepl w None x => resize false w (eval v x)
  | ERepl _ (Some n) x => concat (repeat (eval v x) (Z.to_nat n))
  | EConv w prop si so _ x => resize (if prop then so else si) w (eval v x)
  | ECond w _ c l r mux =>
      map (fun k => mux (eval v c) (nth k (eval v l) vzero) (nth k (eval v r) vzero)) (seq 0 w)
  | EOther _ _ ops f => f (map (eval v) ops)
  end.

(** Symbol bits an expression can read. *)
Definition lsp_reads (p : path) (a n : nat) : list (nat * nat) :=
  match proot p with Some s => map (fun i => (s, i)) (seq a n) | None => [] end.
Fixpoint reads (e : expr) : list (nat * nat) :=
  match e with
  | ELsp p w => lsp_reads p (plo p) w
  | EDyn p _ ops _ => lsp_reads p (plo p) (phi p + 1 - plo p) ++ flat_map reads ops
  | EConcat _ es => flat_map reads es
  | ERepl _ _ x => reads x
  | EConv _ _ _ _ _ x => reads x
  | ECond _ _ c l r _ => reads c ++ reads l ++ reads r
  | EOther _ _ ops _ => flat_map reads ops
  end.

(** Symbol bits named by an origin. *)
Definition atom_reads (a : atom) : list (nat * nat) :=
  match a with
  | ABit (Some s) i => [(s, i)]
  | AOpq e => reads e
  | _ => []
  end.

Definition agree (v1 v2 : env) (l : list (nat * nat)) : Prop :=
  forall s i, In (s, i) l -> v1 s i = v2 s i.

(** Contracts on the parts of slang: values have the declared width, and folding gives
    the value. *)
Fixpoint sized (e : expr) : Prop :=
  (forall v, length (eval v e) = ew e) /\
  match e with
  | EConcat _ es => fold_right (fun x P => sized x /\ P) True es
  | ERepl _ _ x => sized x
  | EConv _ _ _ _ _ x => sized x
  | ECond _ _ c l r _ => sized c /\ sized l /\ sized r
  | _ => True
  end.
Fixpoint folds_ok (e : expr) : Prop :=
  match e with
  | EConcat _ es => fold_right (fun x P => folds_ok x /\ P) True es
  | ERepl _ _ x => folds_ok x
  | EConv _ _ _ _ fold x =>
      (forall c v, fold = Some c -> eval v e = c) /\ folds_ok x
  | ECond _ _ _ l r _ => folds_ok l /\ folds_ok r
  | EOther _ fold _ _ => forall c v, fold = Some c -> eval v e = c
  | _ => True
  end.

(** No widening of a signed value where bits are passed through. *)
Fixpoint unsigned_ext (e : expr) : Prop :=
  match e with
  | EConcat _ es => fold_right (fun x P => unsigned_ext x /\ P) True es
  | ERepl _ _ x => unsigned_ext x
  | EConv w prop si so _ x =>
      (ew x < w -> (if prop then so else si) = false) /\ unsigned_ext x
  | ECond _ _ _ l r _ => unsigned_ext l /\ unsigned_ext r
  | _ => True
  end.

End Spec.

Arguments ABit {V} _ _.
Arguments APad {V}.
Arguments AOpq {V} _.
Arguments AConst {V} _.
Arguments bits {V} _ _.
Arguments atoms_of {V} _ _ _.
Arguments attr {V} _ _ _.
Arguments tiled {V} _ _ _.
Arguments boundary {V} _ _.
Arguments typed {V} _ _.
Arguments hcut {V} _ _ _.
Arguments is_const {V} _ _.
Arguments inside {V} _ _.
Arguments together {V} _ _ _ _.
Arguments look {V} _ _ _ _.
Arguments resize {V} _ _ _ _.
Arguments eval {V} _ _ _.
Arguments reads {V} _.
Arguments atom_reads {V} _.
Arguments agree {V} _ _ _.
Arguments sized {V} _ _.
Arguments folds_ok {V} _ _.
Arguments unsigned_ext {V} _.
