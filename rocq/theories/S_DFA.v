(** Specification of the procedural data-flow analysis: paths through a block and the
    last write of a bit on a path.  No driver maps, intervals or states. *)
From Verif Require Import Base M_Graph M_Range M_Netlist M_Annot M_Interval M_Heap M_Drivers M_Pending M_DFA.

(** One write: the assignment's label, the symbol, the bits. A path is described by its
    writes in order. *)
Definition wr := (nat * nat * range)%type.
Definition trace := list wr.
Definition bit (b : range) (i : Z) : Prop :=
  (Z.min (rleft b) (rright b) <= i <= Z.max (rleft b) (rright b))%Z.
Definition bitb (b : range) (i : Z) : bool :=
  ((Z.min (rleft b) (rright b) <=? i) && (i <=? Z.max (rleft b) (rright b)))%Z.
(** The assignment that wrote bit [i] of [sy] last. *)
Fixpoint last_w (t : trace) (sy : nat) (i : Z) : option nat :=
  match t with
  | [] => None
  | (l, sy', b) :: r =>
      match last_w r sy i with
      | Some x => Some x
      | None => if Nat.eqb sy sy' && bitb b i then Some l else None
      end
  end.
Definition cat (P Q : list trace) : list trace := flat_map (fun t => map (app t) Q) P.

Section Spec.
(** Automatic variables are not looked at on the legacy path. *)
Variable automatic : nat -> bool.
Definition static (l : list ref) : list ref := filter (fun x => negb (automatic (fst x))) l.

Definition writes (l : nat) (xs : list ref) : trace := map (fun x => (l, fst x, snd x)) xs.
(** The blocking writes of an assignment. *)
Definition seg_writes (l : nat) (blocking : bool) (g : seg) : trace :=
  if blocking then writes l (slhs g) else [].

(** The blocking writes on each path through a statement. *)
Fixpoint paths (p : stmt) : list trace :=
  match p with
  | SSkip => [[]]
  | SAligned l bl gs => [flat_map (seg_writes l bl) gs]
  | SLegacy l bl lhs _ => [if bl then writes l (static lhs) else []]
  | SSeq p q => cat (paths p) (paths q)
  | SIf _ k _ t => match k with Some false => [] | _ => paths t end ++
                   match k with Some true => [] | _ => [[]] end
  | SIfElse _ k _ t e => match k with Some false => [] | _ => paths t end ++
                         match k with Some true => [] | _ => paths e end
  | SCase _ _ items => cpaths items
  end
with cpaths (c : clist) : list trace :=
  match c with
  | CFull => []
  | CDefault p => paths p
  | CCons _ p r => paths p ++ cpaths r
  end.

(** A read in the source: what happened before it on each path that leads to it, the
    kind of node that reads, and the bits read. *)
Definition rd := (list trace * nk * ref)%type.
Definition src_refs (r : rsrc) : list ref :=
  match r with RLsp x => [x] | ROpaque l => static l | _ => [] end.
Definition reads_at (T : list trace) (k : nk) (l : list ref) : list rd := map (fun x => (T, k, x)) l.
Definition after (P : list trace) (x : rd) : rd := let '(T, k, r) := x in (cat P T, k, r).
(** The segments of an assignment are done one after the other, the left-hand side of
    each before its right-hand side. *)
Fixpoint seg_reads (l : nat) (bl : bool) (gs : list seg) : list rd :=
  match gs with
  | [] => []
  | g :: r => reads_at [seg_writes l bl g] (KAssign l) (flat_map src_refs (srhs g)) ++
              map (after [seg_writes l bl g]) (seg_reads l bl r)
  end.
(** The reads made under a constant condition have no node of their own and are left
    out. *)
Fixpoint reads (p : stmt) : list rd :=
  match p with
  | SSkip => []
  | SAligned l bl gs => seg_reads l bl gs
  | SLegacy l bl lhs rhs => reads_at [if bl then writes l (static lhs) else []] (KAssign l) (static rhs)
  | SSeq p q => reads p ++ map (after (paths p)) (reads q)
  | SIf l k c t => match k with None => reads_at [[]] (KCond l) (static c) | Some _ => [] end ++
                   match k with Some false => [] | _ => reads t end
  | SIfElse l k c t e =>
      match k with None => reads_at [[]] (KCond l) (static c) | Some _ => [] end ++
      match k with Some false => [] | _ => reads t end ++
      match k with Some true => [] | _ => reads e end
  | SCase l c items => reads_at [[]] (KCase l) (static c) ++ creads l items
  end
with creads (l : nat) (c : clist) : list rd :=
  match c with
  | CFull => []
  | CDefault p => reads p
  | CCons x p r => reads_at [[]] (KCase l) (static x) ++ reads p ++ creads l r
  end.

(** No constant condition and no case without a branch: all code is reachable. *)
Fixpoint live (p : stmt) : bool :=
  match p with
  | SSeq p q => live p && live q
  | SIf _ k _ t => match k with None => live t | Some _ => false end
  | SIfElse _ k _ t e => match k with None => live t && live e | Some _ => false end
  | SCase _ _ items => match items with CFull => false | _ => clive items end
  | _ => true
  end
with clive (c : clist) : bool :=
  match c with
  | CFull => true
  | CDefault p => live p
  | CCons _ p r => live p && clive r
  end.

(** Every blocking write of a statement, reachable or not. *)
Fixpoint all_writes (p : stmt) : trace :=
  match p with
  | SSkip => []
  | SAligned l bl gs => flat_map (seg_writes l bl) gs
  | SLegacy l bl lhs _ => if bl then writes l lhs else []
  | SSeq p q => all_writes p ++ all_writes q
  | SIf _ _ _ t => all_writes t
  | SIfElse _ _ _ t e => all_writes t ++ all_writes e
  | SCase _ _ items => call_writes items
  end
with call_writes (c : clist) : trace :=
  match c with
  | CFull => []
  | CDefault p => all_writes p
  | CCons _ p r => all_writes p ++ call_writes r
  end.

(** The non-blocking writes, in source order. *)
Fixpoint nb_writes (p : stmt) : trace :=
  match p with
  | SSkip => []
  | SAligned l bl gs => if bl then [] else flat_map (fun g => writes l (slhs g)) gs
  | SLegacy l bl lhs _ => if bl then [] else writes l (static lhs)
  | SSeq p q => nb_writes p ++ nb_writes q
  | SIf _ _ _ t => nb_writes t
  | SIfElse _ _ _ t e => nb_writes t ++ nb_writes e
  | SCase _ _ items => cnb_writes items
  end
with cnb_writes (c : clist) : trace :=
  match c with
  | CFull => []
  | CDefault p => nb_writes p
  | CCons _ p r => nb_writes p ++ cnb_writes r
  end.

(** The right-hand side of an assignment is read before the assignment writes: the reads
    as the language defines them. *)
Definition assign_reads (l : nat) (gs : list seg) : list rd :=
  reads_at [[]] (KAssign l) (flat_map (fun g => flat_map src_refs (srhs g)) gs).
Fixpoint lreads (p : stmt) : list rd :=
  match p with
  | SSkip => []
  | SAligned l bl gs => assign_reads l gs
  | SLegacy l bl lhs rhs => reads_at [[]] (KAssign l) (static rhs)
  | SSeq p q => lreads p ++ map (after (paths p)) (lreads q)
  | SIf l k c t => match k with None => reads_at [[]] (KCond l) (static c) | Some _ => [] end ++
                   match k with Some false => [] | _ => lreads t end
  | SIfElse l k c t e =>
      match k with None => reads_at [[]] (KCond l) (static c) | Some _ => [] end ++
      match k with Some false => [] | _ => lreads t end ++
      match k with Some true => [] | _ => lreads e end
  | SCase l c items => reads_at [[]] (KCase l) (static c) ++ clreads l items
  end
with clreads (l : nat) (c : clist) : list rd :=
  match c with
  | CFull => []
  | CDefault p => lreads p
  | CCons x p r => reads_at [[]] (KCase l) (static x) ++ lreads p ++ clreads l r
  end.

(** No blocking assignment reads a bit that it writes itself. *)
Definition no_common (ws : trace) (rs : list ref) : Prop :=
  forall l sy b b' i, In (l, sy, b) ws -> In (sy, b') rs -> bit b i -> bit b' i -> False.
Fixpoint no_self (p : stmt) : Prop :=
  match p with
  | SSkip => True
  | SAligned l bl gs => no_common (flat_map (seg_writes l bl) gs) (flat_map (fun g => flat_map src_refs (srhs g)) gs)
  | SLegacy l bl lhs rhs => no_common (if bl then writes l (static lhs) else []) (static rhs)
  | SSeq p q => no_self p /\ no_self q
  | SIf _ _ _ t => no_self t
  | SIfElse _ _ _ t e => no_self t /\ no_self e
  | SCase _ _ items => cno_self items
  end
with cno_self (c : clist) : Prop :=
  match c with
  | CFull => True
  | CDefault p => no_self p
  | CCons _ p r => no_self p /\ cno_self r
  end.

(** The assignments whose value bit [i] of [sy] may have at the end of the block: the last
    non-blocking write in source order, or else the last blocking write on a path. *)
Definition drives_at_end (p : stmt) (sy : nat) (i : Z) (l : nat) : Prop :=
  match last_w (nb_writes p) sy i with
  | Some l' => l = l'
  | None => exists t, In t (paths p) /\ last_w t sy i = Some l
  end.
End Spec.

(** Two writes to one symbol touch the same bits or have no bit in common. *)
Definition aligned_writes (W : trace) : Prop :=
  forall l sy b l' b', In (l, sy, b) W -> In (l', sy, b') W ->
    (lower b = lower b' /\ upper b = upper b') \/ (upper b < lower b' \/ upper b' < lower b)%Z.

(** What the trace of the run says: the node that an assignment's label stands for drives
    a bit; an edge between two labelled nodes; an R-value left to the pending queue. *)
Definition is_kind (f : fx) (n : nat) (k : nk) : Prop := In (n, k) (fnodes f).
Definition edge_for (f : fx) (l : nat) (k : nk) (name : str) (b : range) : Prop :=
  exists n m, In (DDep n m (Some name) b EKNone) (fdeps f) /\ is_kind f n (KAssign l) /\ is_kind f m k.
Definition pending_for (f : fx) (k : nk) (sy : nat) (i : Z) : Prop :=
  exists x m, In x (fpend f) /\ psym x = sy /\ pnode x = Some m /\ is_kind f m k /\ bit (pbounds x) i.
Definition control_edge (f : fx) (k k' : nk) : Prop :=
  exists n m, In (DPlain n m) (fdeps f) /\ is_kind f n k /\ is_kind f m k'.

(** The stored drivers of a bit. *)
Definition driven_by (a : astate) (sy : nat) (i : Z) (n : nat) : Prop :=
  exists x l, In x (ivs (defs a sy)) /\ (ilo x <= i <= ihi x)%Z /\
    get (lists (defs a sy)) (ival x) = Some l /\ In n l.
Definition driver_label (s : st) (sy : nat) (i : Z) (l : nat) : Prop :=
  exists n, driven_by (cur s) sy i n /\ is_kind (fxs s) n (KAssign l).

(** A state as a history of tracked writes: symbol, bits, drivers, merging or not. *)
Fixpoint track_all (a : astate) (h : list (nat * range * list nat * bool)) : dres astate :=
  match h with
  | [] => DOk a
  | (sy, b, dl, m) :: r => do a1 <- trackDrivers a sy b dl m; track_all a1 r
  end.

(** Straight-line blocks: label, blocking or not, bits written, bits read. *)
Definition asg := (nat * bool * list ref * list ref)%type.
Fixpoint straight (ls : list asg) : stmt :=
  match ls with
  | [] => SSkip
  | (l, bl, lhs, rhs) :: r => SSeq (SAligned l bl [Seg lhs (map RLsp rhs)]) (straight r)
  end.
Definition blocking_writes (ls : list asg) : trace :=
  flat_map (fun x => let '(l, bl, lhs, _) := x in if bl : bool then writes l lhs else []) ls.
Definition nonblocking_writes (ls : list asg) : trace :=
  flat_map (fun x => let '(l, bl, lhs, _) := x in if bl : bool then [] else writes l lhs) ls.

(** The non-blocking writes on each path through a statement whose conditions are not
    constant and which has only bit-aligned assignments. *)
Fixpoint npaths (p : stmt) : list trace :=
  match p with
  | SAligned l bl gs => [if bl then [] else flat_map (fun g => writes l (slhs g)) gs]
  | SSeq p q => cat (npaths p) (npaths q)
  | SIf _ _ _ t => npaths t ++ [[]]
  | SIfElse _ _ _ t e => npaths t ++ npaths e
  | _ => [[]]
  end.

(** Only legacy assignments. *)
Fixpoint legacy (p : stmt) : bool :=
  match p with
  | SAligned _ _ _ => false
  | SSeq p q => legacy p && legacy q
  | SIf _ _ _ t => legacy t
  | SIfElse _ _ _ t e => legacy t && legacy e
  | SCase _ _ items => clegacy items
  | _ => true
  end
with clegacy (c : clist) : bool :=
  match c with
  | CFull => true
  | CDefault p => legacy p
  | CCons _ p r => legacy p && clegacy r
  end.
