(** Specification of the directed multigraph: one global list of edges in
    creation order.  Independent of the model's out/in lists and index. *)
From Verif Require Import Base M_Graph.

Record mg := MG { mv : list nat; mE : list edge; mnn : nat; mne : nat }.
Definition mg_empty := MG [] [] 0 0.

Definition between (a b : nat) (e : edge) : bool := Nat.eqb (esrc e) a && Nat.eqb (etgt e) b.
Definition touches (n : nat) (e : edge) : bool := Nat.eqb (esrc e) n || Nat.eqb (etgt e) n.
Definition memb (n : nat) (l : list nat) : bool := existsb (Nat.eqb n) l.

Definition mg_push (s : mg) (a b : nat) : mg * edge :=
  let e := Edge (mne s) a b in (MG (mv s) (mE s ++ [e]) (mnn s) (S (mne s)), e).

(** The simplest reading of each operation.  [None]: an endpoint is not a node of
    the graph (the caller violated the asserted precondition). *)
Definition mg_step (s : mg) (o : op) : option (mg * res) :=
  match o with
  | OAddNode => Some (MG (mv s ++ [mnn s]) (mE s) (S (mnn s)) (mne s), RNode (mnn s))
  | ORemoveNode n =>
      if memb n (mv s)
      then Some (MG (remove_first (Nat.eqb n) (mv s))
                    (filter (fun e => negb (touches n e)) (mE s)) (mnn s) (mne s), RBool true)
      else Some (s, RBool false)
  | OAddEdge a b =>
      if memb a (mv s) && memb b (mv s) then
        match find (between a b) (mE s) with
        | Some e => Some (s, REdge e)
        | None => let (s', e) := mg_push s a b in Some (s', REdge e)
        end
      else None
  | OAddNewEdge a b =>
      if memb a (mv s) && memb b (mv s)
      then let (s', e) := mg_push s a b in Some (s', REdge e) else None
  | ORemoveEdge a b =>
      if memb a (mv s) && memb b (mv s)
      then Some (MG (mv s) (remove_first (between a b) (mE s)) (mnn s) (mne s),
                 RBool (existsb (between a b) (mE s)))
      else None
  end.

Fixpoint mg_run (s : mg) (os : list op) : option (mg * list res) :=
  match os with
  | [] => Some (s, [])
  | o :: r => match mg_step s o with
              | None => None
              | Some (s', x) => match mg_run s' r with
                                | None => None
                                | Some (s'', xs) => Some (s'', x :: xs)
                                end
              end
  end.

(** What a caller can observe of a graph through getOutEdges, getInEdges, the node
    list and the degrees. *)
Record Mirror (g : graph) : Prop := {
  mir_out : forall a e, In e (outs (nst g a)) ->
      esrc e = a /\ In a (gnodes g) /\ In (etgt e) (gnodes g) /\ In e (ins (nst g (etgt e)));
  mir_in : forall b e, In e (ins (nst g b)) ->
      etgt e = b /\ In b (gnodes g) /\ In (esrc e) (gnodes g) /\ In e (outs (nst g (esrc e)));
  mir_nodup_out : forall a, NoDup (outs (nst g a));
  mir_nodup_in : forall b, NoDup (ins (nst g b));
  mir_ids : forall e1 e2 a1 a2, In e1 (outs (nst g a1)) -> In e2 (outs (nst g a2)) ->
      eid e1 = eid e2 -> e1 = e2;
  mir_order : forall a b, filter (to b) (outs (nst g a)) = filter (from a) (ins (nst g b));
  mir_nodes : NoDup (gnodes g) }.

(** Reachable states of the container, for a given index threshold. *)
Definition reachable (thr : nat) (g : graph) : Prop :=
  exists os rs, run thr empty_graph os = Some (g, rs).
