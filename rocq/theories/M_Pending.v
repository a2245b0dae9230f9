(** Model of source/PendingRvalueQueue.cpp and of the phases of source/BuildPipeline.cpp
    that fill and empty the queue.

    What a block's data-flow analysis asks for is the list of its enqueue calls
    ([t_items]); the thread pool (external) is any assignment of tasks to threads and any
    interleaving.  Times and the profile's durations are not modelled. *)
From Verif Require Import Base M_Graph M_Range M_Netlist M_Annot M_Interval M_Heap M_Drivers.

(** PendingRvalue, PendingRValue.hpp 14-38.  [pref] is the SymbolReference that
    toSymbolRef gives for the symbol; the LSP expression is not read. *)
Record pend := Pend { psym : nat; pref : str; pbounds : range; pnode : option nat; pkind : edgekind }.

(** emitEdgesFor, PendingRvalueQueue.cpp 62-99: its calls of addDependency, in order.
    The variable tracker and the driver maps are only read here. Driver nodes are never
    null in [M_Drivers.v], so the test at 93 always holds. *)
Definition emitEdgesFor (vt : vtracker) (dm : nat -> option dmap) (p : pend) : dres (list dep) :=
  match pnode p with
  | None => DOk []
  | Some n =>
      match vt_lookup vt (psym p) (pbounds p) with
      | Some st => DOk [DDep st n (Some (pref p)) (pbounds p) (pkind p)]
      | None =>
          match dm (psym p) with
          | None => DOk []
          | Some d =>
              do l <- forEachDriverInterval d (pbounds p);
              DOk (flat_map (fun x => match intersection (fst x) (pbounds p) with
                                      | None => []
                                      | Some eb => map (fun s => DDep s n (Some (pref p)) eb (pkind p)) (snd x)
                                      end) l)
          end
      end
  end.

(** resolveSequential, 101-106: the calls made. *)
Fixpoint emit_all (vt : vtracker) (dm : nat -> option dmap) (q : list pend) : dres (list dep) :=
  match q with
  | [] => DOk []
  | p :: r => do l <- emitEdgesFor vt dm p; do m <- emit_all vt dm r; DOk (l ++ m)
  end.

(** * resolveParallel, 108-164 *)
(** The order at 116: null first, then by address. *)
Definition node_le (addr : nat -> nat) (p q : pend) : Prop :=
  match pnode p, pnode q with
  | None, _ => True
  | Some _, None => False
  | Some a, Some b => addr a <= addr b
  end.
Definition same_node (p q : pend) : bool :=
  match pnode p, pnode q with
  | None, None => true
  | Some a, Some b => Nat.eqb a b
  | _, _ => false
  end.

(** 119-121: find_if. *)
Fixpoint firstReal (q : list pend) : nat :=
  match q with
  | [] => 0
  | p :: r => match pnode p with None => S (firstReal r) | Some _ => 0 end
  end.
(** The loop at 128-132 from index [i] on; [prev] is queue[i - 1], [r] the rest. *)
Fixpoint starts (i : nat) (prev : pend) (r : list pend) : list nat :=
  match r with
  | [] => []
  | p :: r' => (if same_node p prev then [] else [i]) ++ starts (S i) p r'
  end.
(** 125-134. *)
Definition runStarts (q : list pend) : list nat :=
  let f := firstReal q in
  match skipn f q with
  | [] => []
  | p :: r => f :: starts (S f) p r ++ [length q]
  end.
(** queue[a .. b). *)
Definition sub (q : list pend) (a b : nat) : list pend := firstn (b - a) (skipn a q).
(** The runs r = 0 .. numRuns - 1, each given by its items (147). *)
Fixpoint runs_of (q : list pend) (st : list nat) : list (list pend) :=
  match st with
  | a :: r => match r with b :: _ => sub q a b :: runs_of q r | [] => [] end
  | [] => []
  end.
Definition runs (q : list pend) : list (list pend) := runs_of q (runStarts q).

(** * Concurrent emission, 142-157 *)
(** Where a thread is inside addDependency: outside; holding the edge that addEdge
    returned; about to call addNewEdge; holding the edge that it returned.  Each of
    addEdge and addNewEdge takes effect at one point (C06); the edge's members are written
    without a lock. *)
Inductive pc := PIdle | PSet (e : edge) | PNew | PSet2 (e : edge).
Record rstate := RS { rnl : netlist; rth : nat -> list dep * pc }.
Definition rset (s : rstate) (nl : netlist) (t : nat) (x : list dep * pc) : rstate :=
  RS nl (upd (rth s) t x).

(** One atomic step of thread [t]; NetlistBuilder.cpp 73-106. *)
Definition rstep (t : nat) (s : rstate) : option rstate :=
  let nl := rnl s in
  match rth s t with
  | ([], _) => None
  | (DPlain a b :: r, _) =>
      match nl_addEdge nl a b with Some (nl1, _) => Some (rset s nl1 t (r, PIdle)) | None => None end
  | (DDep a b sy rg k :: r, c) =>
      let eb := edgeBounds nl a rg in
      match c with
      | PIdle => match nl_addEdge nl a b with
                 | Some (nl1, e) => Some (rset s nl1 t (DDep a b sy rg k :: r, PSet e))
                 | None => None
                 end
      | PSet e => match setVariable (eatt nl (eid e)) sy eb with
                  | Some (x, true) => Some (rset s (set_attr nl e (setEdgeKind x k)) t (r, PIdle))
                  | Some (_, false) => Some (rset s nl t (DDep a b sy rg k :: r, PNew))
                  | None => None
                  end
      | PNew => match nl_addNewEdge nl a b with
                | Some (nl1, e) => Some (rset s nl1 t (DDep a b sy rg k :: r, PSet2 e))
                | None => None
                end
      | PSet2 e => match setVariable (eatt nl (eid e)) sy eb with
                   | Some (x, _) => Some (rset s (set_attr nl e (setEdgeKind x k)) t (r, PIdle))
                   | None => None
                   end
      end
  end.
Fixpoint rexec (sched : list nat) (s : rstate) : option rstate :=
  match sched with
  | [] => Some s
  | t :: r => match rstep t s with Some s' => rexec r s' | None => None end
  end.
Definition rinit (nl : netlist) (progs : nat -> list dep) : rstate := RS nl (fun t => (progs t, PIdle)).

(** * Phases 2 and 3 *)
(** A deferred block: the enqueue calls its analysis makes, and whether it then throws. *)
Record task := Task { t_items : list pend; t_throws : bool }.

(** The shared queue; the buffers allWork[i]; per thread threadLocalDeferredWork and the
    running task with the calls still to make; the tasks not yet taken; the recorded
    exception (task number). *)
Record pstate := PS {
  mainq : list pend;
  bufs : nat -> list pend;
  tlocal : nat -> option nat;
  running : nat -> option (nat * list pend);
  waiting : list nat;
  pexc : option nat }.

(** enqueue, PendingRvalueQueue.cpp 21-31. *)
Definition enqueue (s : pstate) (t : nat) (p : pend) : list pend * (nat -> list pend) :=
  match tlocal s t with
  | Some i => (mainq s, upd (bufs s) i (bufs s i ++ [p]))
  | None => (mainq s ++ [p], bufs s)
  end.

(** One step of worker [t] in runPhase2Parallel, BuildPipeline.cpp 65-91: an idle worker
    takes the waiting task at place [c]; a busy one makes its next call or ends the task. *)
Definition pstep (tasks : list task) (tc : nat * nat) (s : pstate) : option pstate :=
  let (t, c) := tc in
  match running s t with
  | None =>
      match nth_error (waiting s) c with
      | None => None
      | Some i =>
          match nth_error tasks i with
          | None => None
          | Some k => Some (PS (mainq s) (bufs s) (upd (tlocal s) t (Some i))
                               (upd (running s) t (Some (i, t_items k)))
                               (firstn c (waiting s) ++ skipn (S c) (waiting s)) (pexc s))
          end
      end
  | Some (i, p :: r) =>
      let (m, b) := enqueue s t p in
      Some (PS m b (tlocal s) (upd (running s) t (Some (i, r))) (waiting s) (pexc s))
  | Some (i, []) =>
      let ex := match nth_error tasks i with
                | Some k => if t_throws k then match pexc s with None => Some i | x => x end else pexc s
                | None => pexc s
                end in
      Some (PS (mainq s) (bufs s) (upd (tlocal s) t None) (upd (running s) t None) (waiting s) ex)
  end.
Fixpoint pexec (tasks : list task) (sched : list (nat * nat)) (s : pstate) : option pstate :=
  match sched with
  | [] => Some s
  | x :: r => match pstep tasks x s with Some s' => pexec tasks r s' | None => None end
  end.
Definition pinit (q : list pend) (tasks : list task) : pstate :=
  PS q (fun _ => []) (fun _ => None) (fun _ => None) (seq 0 (length tasks)) None.

(** drain, PendingRvalueQueue.cpp 37-60: the queue, the buffers afterwards and the count
    added to profile.deferredPendingRValueCount. *)
Definition drain (n : nat) (s : pstate) : list pend * (nat -> list pend) * nat :=
  fold_left (fun x i => let '(q, b, c) := x in (q ++ b i, upd b i [], c + length (b i)))
    (seq 0 n) (mainq s, bufs s, 0).

(** runPhase2Parallel after wait(), BuildPipeline.cpp 94-108: [inl i] the exception of
    task [i] is rethrown, else the queue. *)
Definition phase2_result (tasks : list task) (s : pstate) : nat + list pend :=
  match pexc s with
  | Some i => inl i
  | None => inr (fst (fst (drain (length tasks) s)))
  end.

(** runPhase2Sequential, 40-55: enqueue without a buffer; an exception ends the loop. *)
Fixpoint phase2_seq (i : nat) (tasks : list task) (q : list pend) : nat + list pend :=
  match tasks with
  | [] => inr q
  | k :: r => if t_throws k then inl i else phase2_seq (S i) r (q ++ t_items k)
  end.
