(** Specification for NetlistSerializer: what a reader of a graph can see. *)
From Coq Require Import Ascii String.
From Verif Require Import Base M_Range M_Graph S_Graph M_Netlist M_Serial.

(** An edge as seen from outside: its members, the symbol as a record. *)
Record eview := EV { vkind : edgekind; vsym : option sym; vbounds : range; vdis : bool }.

Fixpoint index_of (n : nat) (l : list nat) : nat :=
  match l with [] => 0 | x :: r => if Nat.eqb x n then 0 else S (index_of n r) end.

Section View.
Variable cval : Type.
Variable cbad : cval.
Variable ctext : cval -> str.
Variable cparse : str -> option cval.

Definition sym_at (tab : list sym) (o : option nat) : option sym :=
  match o with Some i => nth_error tab i | None => None end.
Definition edge_view (g : nlg cval) (e : edge) : nat * eview :=
  let d := ledge g (eid e) in
  (index_of (etgt e) (gnodes (lg g)), EV (dkind d) (sym_at (lsyms g) (dsym d)) (dbounds d) (ddis d)).
Definition node_view (g : nlg cval) (n : nat) : ndata cval * list (nat * eview) :=
  (lnode g n, map (edge_view g) (outs (nst (lg g) n))).
(** The whole graph: the nodes in order, each with its out-edges in order, targets
    given by position. *)
Definition view (g : nlg cval) : list (ndata cval * list (nat * eview)) := map (node_view g) (gnodes (lg g)).
Definition edge_count (v : list (ndata cval * list (nat * eview))) : nat :=
  list_sum (map (fun x => length (snd x)) v).

(** Parallel edges merged: first place, last members. *)
Fixpoint put (l : list (nat * eview)) (x : nat * eview) : list (nat * eview) :=
  match l with
  | [] => [x]
  | y :: r => if Nat.eqb (fst y) (fst x) then x :: r else y :: put r x
  end.
Definition collapse (l : list (nat * eview)) : list (nat * eview) := fold_left put l [].

(** Ranges come back as (lower, upper); constants through their text. *)
Definition asc (r : range) : range := Range (Z.min (rleft r) (rright r)) (Z.max (rleft r) (rright r)).
Definition restored (v : cval) : cval :=
  match ctext v with
  | [] => cbad
  | s => match cparse s with Some v' => v' | None => cbad end
  end.
Definition norm_data (d : ndata cval) : ndata cval :=
  match d with
  | DPort n p l dir b => DPort n p l dir (asc b)
  | DVariable n p l b => DVariable n p l (asc b)
  | DState n p l b => DState n p l (asc b)
  | DConstant v w l => DConstant (restored v) w l
  | x => x
  end.
Definition norm_edge (x : nat * eview) : nat * eview :=
  (fst x, EV (vkind (snd x)) (vsym (snd x)) (asc (vbounds (snd x))) (vdis (snd x))).

(** The member values fit the C++ types. *)
Definition in_u32 (z : Z) : Prop := (0 <= z < 4294967296)%Z.
Definition in_u64 (z : Z) : Prop := (0 <= z < 18446744073709551616)%Z.
Definition in_i32 (z : Z) : Prop := (-2147483648 <= z < 2147483648)%Z.
Definition ok_loc (l : loc) : Prop := in_u32 (lfile l) /\ in_u64 (lline l) /\ in_u64 (lcol l).
Definition ok_range (r : range) : Prop := in_i32 (rleft r) /\ in_i32 (rright r).
Definition ok_data (d : ndata cval) : Prop :=
  match d with
  | DPort _ _ l _ b | DVariable _ _ l b | DState _ _ l b => ok_loc l /\ ok_range b
  | DAssignment l | DConditional l | DCase l => ok_loc l
  | DConstant _ w l => ok_loc l /\ in_u64 w
  | _ => True
  end.

(** What holds of a graph the builder made: container invariant, distinct IDs and table
    keys, typed members, symbol pointers into the table. *)
Record Storable (g : nlg cval) : Prop := {
  st_graph : reachable outEdgeIndexThreshold (lg g);
  st_ids : NoDup (map (lid g) (gnodes (lg g)));
  st_id64 : forall n, In n (gnodes (lg g)) -> in_u64 (lid g n);
  st_files : NoDup (lfiles g);
  st_syms : NoDup (map sypath (lsyms g));
  st_symloc : forall s, In s (lsyms g) -> ok_loc (syloc s);
  st_data : forall n, In n (gnodes (lg g)) -> ok_data (lnode g n);
  st_edges : forall n e, In n (gnodes (lg g)) -> In e (outs (nst (lg g) n)) ->
      ok_range (dbounds (ledge g (eid e))) /\
      forall i, dsym (ledge g (eid e)) = Some i -> i < length (lsyms g) }.

(** Nothing is lost in text form: ranges ascending, constants readable. *)
Definition plain_range (r : range) : Prop := (rleft r <= rright r)%Z.
Definition plain_data (d : ndata cval) : Prop :=
  match d with
  | DPort _ _ _ _ b | DVariable _ _ _ b | DState _ _ _ b => plain_range b
  | DConstant v _ _ => restored v = v
  | _ => True
  end.
Definition Plain (g : nlg cval) : Prop :=
  Forall (fun x => plain_data (fst x) /\ Forall (fun y => plain_range (vbounds (snd y))) (snd x)) (view g).
Definition NoParallel (g : nlg cval) : Prop :=
  forall n, In n (gnodes (lg g)) -> NoDup (map etgt (outs (nst (lg g) n))).
End View.

Arguments edge_view {cval} _ _.
Arguments node_view {cval} _ _.
Arguments view {cval} _.
Arguments edge_count {cval} _.
Arguments restored {cval} _ _ _ _.
Arguments norm_data {cval} _ _ _ _.
Arguments ok_data {cval} _.
Arguments Storable {cval} _.
Arguments Plain {cval} _ _ _ _.
Arguments plain_data {cval} _ _ _ _.
Arguments NoParallel {cval} _.

(** A well-formed document. *)
Definition known_kinds : list string :=
  ["None"; "Port"; "Variable"; "Assignment"; "Conditional"; "Case"; "Merge"; "State"; "Constant"]%string.
Definition known_edge_kinds : list string := ["None"; "PosEdge"; "NegEdge"; "BothEdges"]%string.
Definition known_directions : list string := ["In"; "Out"; "InOut"; "Ref"]%string.
Definition str_field (j : json) (k : string) (known : list string) : Prop :=
  exists s, In s known /\ field j k = Ok (JStr (lit s)).
Definition id_field (j : json) (k : string) (z : Z) : Prop := field j k = Ok (JNum z).
Definition node_ids (j : json) : list Z :=
  match field j "nodes" with
  | Ok nj => flat_map (fun n => match field n "id" with Ok (JNum z) => [z] | _ => [] end) (elems nj)
  | _ => []
  end.
Record Conforming (j : json) : Prop := {
  cf_version : field j "version" = Ok (JNum 3);
  cf_nodes : exists l, field j "nodes" = Ok (JArr l) /\
     Forall (fun n => (exists z, id_field n "id" z) /\ str_field n "kind" known_kinds /\
                      (field n "kind" = Ok (JStr (lit "Port")) -> str_field n "direction" known_directions)) l;
  cf_ids : NoDup (node_ids j);
  cf_edges : exists l, field j "edges" = Ok (JArr l) /\
     Forall (fun e => str_field e "edgeKind" known_edge_kinds /\
                      (exists o, field e "symbol" = Ok (JObj o)) /\
                      (exists s, id_field e "source" s /\ In s (node_ids j)) /\
                      (exists t, id_field e "target" t /\ In t (node_ids j))) l }.
