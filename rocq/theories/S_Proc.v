(** Specification for designs with combinational blocks: what a block computes, when its
    reads are settled by its own writes, and which blocks the theorems are about.  Nothing
    here mentions nodes or driver maps. *)
From Verif Require Import Base M_Graph M_Range M_Netlist M_Annot M_Interval M_Heap M_Drivers M_Pending M_DFA M_Builder M_Slice M_Port M_Flow M_Proc
  S_Reach S_Netlist S_DFA S_Slice S_Port S_Flow.

(** Every range of bits that an analysed statement reads. *)
Definition source_refs (r : rsrc) : list ref :=
  match r with RLsp x => [x] | ROpaque l => l | RPadding => [] | RConst => [] end.
Fixpoint read_refs (p : stmt) : list ref :=
  match p with
  | SSkip => []
  | SAligned _ _ gs => flat_map (fun g => flat_map source_refs (srhs g)) gs
  | SLegacy _ _ _ rhs => rhs
  | SSeq p q => read_refs p ++ read_refs q
  | SIf _ _ c t => c ++ read_refs t
  | SIfElse _ _ c t e => c ++ read_refs t ++ read_refs e
  | SCase _ c items => c ++ cread_refs items
  end
with cread_refs (c : clist) : list ref :=
  match c with
  | CFull => []
  | CDefault p => read_refs p
  | CCons x p r => x ++ read_refs p ++ cread_refs r
  end.
(** A range that is read and a range of the same symbol that is written have no bit in
    common, or one contains the other. *)
Definition reads_fit (p : stmt) : Prop :=
  forall l t w b, In (l, t, w) (all_writes p) -> In (t, b) (read_refs p) ->
    (lower w <= upper b)%Z -> (lower b <= upper w)%Z ->
    (lower w <= lower b /\ upper b <= upper w)%Z \/ (lower b <= lower w /\ upper w <= upper b)%Z.

Section Spec.
Context {V : Type}.
Variable vzero : V.
(** When a condition holds. *)
Variable istrue : list V -> bool.
(** When the value of an item matches the selector of a case. *)
Variable hits : list V -> list V -> bool.
Notation expr := (expr V).
Notation env := (nat -> nat -> V).
Notation pst := (pst V).

(** * What a block computes *)
Fixpoint assign (bs : list (nat * nat)) (xs : list V) (e : env) : env :=
  match bs with
  | [] => e
  | (t, i) :: r => fun s j => if Nat.eqb s t && Nat.eqb j i then hd vzero xs else assign r (tl xs) e s j
  end.
Fixpoint prun (p : pst) (e : env) : env :=
  match p with
  | PSkip => e
  | PAsg _ l r => assign (lbits l) (eval vzero e r) e
  | PSeq p q => prun q (prun p e)
  | PIf c t => if istrue (eval vzero e c) then prun t e else e
  | PIfElse c t x => if istrue (eval vzero e c) then prun t e else prun x e
  | PCase c items => crun items (eval vzero e c) e
  end
(** The first item with an expression that matches. *)
with crun (x : pcl V) (u : list V) (e : env) : env :=
  match x with
  | PDefault p => prun p e
  | PItem xs p r => if existsb (fun y => hits u (eval vzero e y)) xs then prun p e else crun r u e
  end.

(** * Bits written on some path, and on every path *)
Fixpoint may (p : pst) (s i : nat) : Prop :=
  match p with
  | PSkip => False
  | PAsg _ l _ => In (s, i) (lbits l)
  | PSeq p q => may p s i \/ may q s i
  | PIf _ t => may t s i
  | PIfElse _ t e => may t s i \/ may e s i
  | PCase _ items => cmay items s i
  end
with cmay (x : pcl V) (s i : nat) : Prop :=
  match x with PDefault p => may p s i | PItem _ p r => may p s i \/ cmay r s i end.
Fixpoint must (p : pst) (s i : nat) : Prop :=
  match p with
  | PSkip => False
  | PAsg _ l _ => In (s, i) (lbits l)
  | PSeq p q => must p s i \/ must q s i
  | PIf _ _ => False
  | PIfElse _ t e => must t s i /\ must e s i
  | PCase _ items => cmust items s i
  end
with cmust (x : pcl V) (s i : nat) : Prop :=
  match x with PDefault p => must p s i | PItem _ p r => must p s i /\ cmust r s i end.
(** Each bit is read after it has been written on every path, or on no path; [D] and [M]:
    the bits written on every path and on some path before. *)
Definition settled_read (D M : nat -> nat -> Prop) (e : expr) : Prop := forall s i, In (s, i) (reads e) -> D s i \/ ~ M s i.
Fixpoint reads_ok (D M : nat -> nat -> Prop) (p : pst) : Prop :=
  match p with
  | PSkip => True
  | PAsg _ _ r => settled_read D M r
  | PSeq p q => reads_ok D M p /\ reads_ok (fun s i => D s i \/ must p s i) (fun s i => M s i \/ may p s i) q
  | PIf c t => settled_read D M c /\ reads_ok D M t
  | PIfElse c t e => settled_read D M c /\ reads_ok D M t /\ reads_ok D M e
  | PCase c items => settled_read D M c /\ creads_ok D M items
  end
with creads_ok (D M : nat -> nat -> Prop) (x : pcl V) : Prop :=
  match x with
  | PDefault p => reads_ok D M p
  | PItem xs p r => (forall y, In y xs -> settled_read D M y) /\ reads_ok D M p /\ creads_ok D M r
  end.

(** * Shape *)
(** A branch is a single statement. *)
Fixpoint single (p : pst) : Prop :=
  match p with
  | PSkip | PAsg _ _ _ => True
  | PSeq _ _ => False
  | PIf _ t => single t
  | PIfElse _ t e => single t /\ single e
  | PCase _ items => csingle items
  end
with csingle (x : pcl V) : Prop :=
  match x with PDefault p => single p | PItem _ p r => single p /\ csingle r end.
Fixpoint top (p : pst) : Prop :=
  match p with
  | PSeq p q => top p /\ top q
  | _ => single p
  end.

Variable resolveBits : bool.
Variable h : hints.
Variable ports : list fport.
Variable conns : list (fconn V).
Variable asgs : list (fasg V).
Variable procs : list (fproc V).

(** The same contracts as for a continuous assignment ([wf_design]); assignments are
    blocking. *)
Definition asg_ok (bl : bool) (l r : expr) : Prop :=
  bl = true /\
  (lvalue l /\ typed (fun _ _ => False) l /\ NoDup (lbits l) /\ in_driver ports l /\ (resolveBits = false -> uncut h l)) /\
  readable vzero resolveBits ports r /\ walkable vzero resolveBits r /\ ew l = ew r /\
  forall s i, In (s, i) (reads r) -> ~ In (s, i) (lbits l).
Definition cond_ok (c : expr) : Prop :=
  paths_ok c /\ flat c /\ forall s i p, In (s, i) (reads c) -> In p ports -> s <> fp_id p.
Fixpoint stmt_ok (p : pst) : Prop :=
  match p with
  | PSkip => True
  | PAsg bl l r => asg_ok bl l r
  | PSeq p q => stmt_ok p /\ stmt_ok q
  | PIf c t => cond_ok c /\ stmt_ok t
  | PIfElse c t e => cond_ok c /\ stmt_ok t /\ stmt_ok e
  | PCase c items => cond_ok c /\ items_ok items
  end
with items_ok (x : pcl V) : Prop :=
  match x with
  | PDefault p => stmt_ok p
  | PItem xs p r => (forall y, In y xs -> cond_ok y) /\ stmt_ok p /\ items_ok r
  end.

(** A combinational block: nothing but blocking assignments, no latch (what is written on
    some path is written on every path), settled reads; writes to the same symbol name the
    same bits or different ones, and reads do not straddle writes. *)
Record comb_block (x : fproc V) : Prop := {
  cb_sens : pr_sens x = [];
  cb_ok : stmt_ok (pr_body x);
  cb_top : top (pr_body x);
  cb_latch : forall s i, may (pr_body x) s i -> must (pr_body x) s i;
  cb_reads : reads_ok (fun _ _ => False) (fun _ _ => False) (pr_body x);
  cb_ranges : forall p, proc_stmt vzero resolveBits h (pr_body x) = Some p -> aligned_writes (all_writes p) /\ reads_fit p }.

(** A settled design: also each block gives the bits that it writes their values. *)
Definition psettled (v : env) : Prop :=
  settled vzero conns asgs v /\ forall x s i, In x procs -> may (pr_body x) s i -> v s i = prun (pr_body x) v s i.
Definition pdriven (s i : nat) : Prop :=
  driven ports conns asgs s i \/ exists x, In x procs /\ may (pr_body x) s i.
Definition pagree_undriven (v1 v2 : env) : Prop := forall s i, ~ pdriven s i -> v1 s i = v2 s i.
End Spec.
