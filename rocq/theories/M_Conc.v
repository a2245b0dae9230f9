(** Interleaving model of concurrent Node::addEdge / Node::addNewEdge,
    include/netlist/DirectedGraph.hpp 144-194.

    One step is one mutex acquisition, one mutex release, or one block of code
    executed while holding the mutex of the node it touches.  Sequentially consistent
    memory.  Threads execute a list of calls.  std::make_unique allocates the identity
    of the edge object; it is drawn at the push (before that no other thread can see
    the object, so the moment of allocation is unobservable). *)
From Verif Require Import Base M_Graph.

Inductive call := CAdd (a b : nat) | CNew (a b : nat).
Definition c_src (c : call) : nat := match c with CAdd a _ | CNew a _ => a end.
Definition c_tgt (c : call) : nat := match c with CAdd _ b | CNew _ b => b end.

(** Position inside the current call (the head of [todo]).
    addEdge: [PIdle] -146-> [PLocked] -147-> [PMiss] or [PRet]; [PMiss] -150..153->
    [PRet] (self edge, 155) or [PWantB] -157-> [PHasB] -158-> [PRelB] -159-> [PRet].
    addNewEdge: [PIdle] -175/184-> [PNewLocked] -176..181-> [PRet] (self edge) or
    -185..186-> [PNewRelA] -187-> [PNewWantB] -189-> [PNewHasB] -190-> [PNewRelB] -191-> done.
    [PRet e]: about to release the source mutex and return [e]. *)
Inductive pc := PIdle | PLocked | PMiss | PRet (e : edge)
  | PWantB (e : edge) | PHasB (e : edge) | PRelB (e : edge)
  | PNewLocked | PNewRelA (e : edge) | PNewWantB (e : edge) | PNewHasB (e : edge) | PNewRelB (e : edge).

Record thread := Thread { tpc : pc; todo : list call; rets : list edge }.
Record cstate := CState { cg : graph; lk : nat -> option nat; th : nat -> thread }.

(** The two halves of pushEdge (M_Graph.v): source node, target node. *)
Definition pushOut (thr : nat) (g : graph) (a b : nat) : graph * edge :=
  let e := Edge (nexte g) a b in
  let sa := nst g a in
  let es := outs sa ++ [e] in
  (Graph (gnodes g) (upd (nst g) a (NState es (ins sa) (insertOutEdgeIndex thr (oidx sa) es b e)))
         (nextn g) (S (nexte g)), e).
Definition pushIn (g : graph) (e : edge) : graph :=
  let sb := nst g (etgt e) in
  Graph (gnodes g) (upd (nst g) (etgt e) (NState (outs sb) (ins sb ++ [e]) (oidx sb)))
        (nextn g) (nexte g).

(** One step of thread [t]; [None]: finished, or blocked on a held mutex. *)
Definition go (s : cstate) (t : nat) (p : pc) : cstate :=
  CState (cg s) (lk s) (upd (th s) t (Thread p (todo (th s t)) (rets (th s t)))).
Definition acquire (s : cstate) (t n : nat) (p : pc) : option cstate :=
  match lk s n with
  | Some _ => None
  | None => Some (go (CState (cg s) (upd (lk s) n (Some t)) (th s)) t p)
  end.
Definition release (s : cstate) (n : nat) : cstate := CState (cg s) (upd (lk s) n None) (th s).
Definition setg (s : cstate) (g : graph) : cstate := CState g (lk s) (th s).
Definition return_ (s : cstate) (t : nat) (e : edge) : cstate :=
  CState (cg s) (lk s)
    (upd (th s) t (Thread PIdle (tl (todo (th s t))) (rets (th s t) ++ [e]))).

Definition cstep (thr : nat) (t : nat) (s : cstate) : option cstate :=
  match todo (th s t) with
  | [] => None
  | c :: _ =>
    let a := c_src c in let b := c_tgt c in
    match tpc (th s t) with
    | PIdle => acquire s t a (match c with CAdd _ _ => PLocked | CNew _ _ => PNewLocked end)
    | PLocked => match lookupOutEdge (nst (cg s) a) b with
                 | Some e => Some (go s t (PRet e))
                 | None => Some (go s t PMiss)
                 end
    | PMiss => let (g, e) := pushOut thr (cg s) a b in
               if Nat.eqb a b then Some (go (setg s (pushIn g e)) t (PRet e))
               else Some (go (setg s g) t (PWantB e))
    | PWantB e => acquire s t b (PHasB e)
    | PHasB e => Some (go (setg s (pushIn (cg s) e)) t (PRelB e))
    | PRelB e => Some (go (release s b) t (PRet e))
    | PRet e => Some (return_ (release s a) t e)
    | PNewLocked => let (g, e) := pushOut thr (cg s) a b in
                    if Nat.eqb a b then Some (go (setg s (pushIn g e)) t (PRet e))
                    else Some (go (setg s g) t (PNewRelA e))
    | PNewRelA e => Some (go (release s a) t (PNewWantB e))
    | PNewWantB e => acquire s t b (PNewHasB e)
    | PNewHasB e => Some (go (setg s (pushIn (cg s) e)) t (PNewRelB e))
    | PNewRelB e => Some (return_ (release s b) t e)
    end
  end.

(** Threads 0 .. N-1 run [progs]; the others do nothing. *)
Definition cinit (g : graph) (progs : list (list call)) : cstate :=
  CState g (fun _ => None) (fun t => Thread PIdle (nth t progs []) []).

Fixpoint exec (thr : nat) (sched : list nat) (s : cstate) : option cstate :=
  match sched with
  | [] => Some s
  | t :: r => match cstep thr t s with Some s' => exec thr r s' | None => None end
  end.
