(** Model of the name, driver, sensitivity, constant and black-box queries of
    source/NetlistGraph.cpp. *)
From Coq Require Import Ascii String.
From Verif Require Import Base M_Graph M_Range M_Netlist M_DFS M_Path.
Local Open Scope Z_scope.

(** ** Name index *)

(** nodeIndex after buildIndex, NetlistGraph.cpp 27-37: the named nodes of the graph
    in graph order.  The hash map from name to vector is represented by the list of
    (name, node) pairs in insertion order; the vector under a name is the
    sub-list with that name. *)
Definition index := list (str * nat).
Definition mk_index (nl : netlist) : index :=
  flat_map (fun n => match npath (ninf nl n) with Some p => [(p, n)] | None => [] end)
           (gnodes (ng nl)).
Definition idx_get (i : index) (name : str) : list nat :=
  map snd (filter (fun x => str_eqb (fst x) name) i).

(** lookup(name), 39-45; lookup(name, bounds), 47-61; on a given index. *)
Definition lookup_idx (i : index) (name : str) : option nat := hd_error (idx_get i name).
Definition lookup_range_idx (nl : netlist) (i : index) (name : str) (b : range) : list nat :=
  filter (fun n => match nbounds (ninf nl n) with Some r => overlaps r b | None => false end)
         (idx_get i name).

(** A graph with its lazily built index (indexBuilt / nodeIndex). *)
Record qgraph := QGraph { qnl : netlist; qidx : option index }.
Definition buildIndex (q : qgraph) : qgraph * index :=
  match qidx q with
  | Some i => (q, i)
  | None => let i := mk_index (qnl q) in (QGraph (qnl q) (Some i), i)
  end.
Definition lookup (q : qgraph) (name : str) : qgraph * option nat :=
  let (q', i) := buildIndex q in (q', lookup_idx i name).
Definition lookup_range (q : qgraph) (name : str) (b : range) : qgraph * list nat :=
  let (q', i) := buildIndex q in (q', lookup_range_idx (qnl q) i name b).

(** addNode / removeNode on the same object, DirectedGraph.hpp (M_Graph.v).  Neither
    touches the index. *)
Definition q_addNode (q : qgraph) (inf : ninfo) : qgraph * nat :=
  let (g', n) := addNode (ng (qnl q)) in
  (QGraph (Netlist g' (upd (ninf (qnl q)) n inf) (eatt (qnl q))) (qidx q), n).
Definition q_removeNode (q : qgraph) (n : nat) : option qgraph :=
  match removeNode (ng (qnl q)) n with
  | None => None
  | Some (g', _) => Some (QGraph (Netlist g' (ninf (qnl q)) (eatt (qnl q))) (qidx q))
  end.
Inductive qop := QAdd (inf : ninfo) | QRemove (n : nat) | QLookup (name : str).
Definition q_step (q : qgraph) (o : qop) : option (qgraph * option nat) :=
  match o with
  | QAdd inf => Some (fst (q_addNode q inf), None)
  | QRemove n => option_map (fun q' => (q', None)) (q_removeNode q n)
  | QLookup s => Some (lookup q s)
  end.
Fixpoint q_run (q : qgraph) (os : list qop) : option (qgraph * list (option nat)) :=
  match os with
  | [] => Some (q, [])
  | o :: r => match q_step q o with
              | None => None
              | Some (q', a) => match q_run q' r with
                                | None => None
                                | Some (q'', l) => Some (q'', a :: l)
                                end
              end
  end.
Definition q_empty : qgraph :=
  QGraph (Netlist empty_graph (fun n => NInfo n KNone None None)
            (fun _ => EAttr EKNone None (Range 0 0) false)) None.

(** ** Drivers *)

(** The scan over all out-edges, 68-75 and 89-93: edges annotated with [name]. *)
Definition sym_is (nl : netlist) (name : str) (e : edge) : bool :=
  match asym (eatt nl (eid e)) with Some s => str_eqb s name | None => false end.
Definition edges_of (nl : netlist) (name : str) : list edge :=
  flat_map (fun n => filter (sym_is nl name) (nouts nl n)) (gnodes (ng nl)).
Definition ebounds (nl : netlist) (e : edge) : range := abounds (eatt nl (eid e)).

(** The seen set, 66, 77-79: keep the first occurrence of each source. *)
Fixpoint keep_first (seen : list nat) (l : list nat) : list nat :=
  match l with
  | [] => []
  | x :: r => if mem x seen then keep_first seen r else x :: keep_first (x :: seen) r
  end.

(** getDrivers, 63-83. *)
Definition getDrivers (nl : netlist) (name : str) (b : range) : list nat :=
  keep_first [] (map esrc (filter (fun e => overlaps (ebounds nl e) b) (edges_of nl name))).

(** BitDriver entries and their sort key, 101-103.  [addr] is the address order of
    node objects (std::less on pointers), a parameter. *)
Definition bd := (range * nat)%type.
Definition bd_key (addr : nat -> nat) (x : bd) : Z * Z * nat :=
  (lower (fst x), upper (fst x), addr (snd x)).
Definition key_ltb (a b : Z * Z * nat) : bool :=
  match a, b with
  | (a1, a2, a3), (b1, b2, b3) =>
      (a1 <? b1) || ((a1 =? b1) && ((a2 <? b2) || ((a2 =? b2) && Nat.ltb a3 b3)))
  end.
Definition key_eqb (a b : Z * Z * nat) : bool :=
  match a, b with (a1, a2, a3), (b1, b2, b3) => (a1 =? b1) && (a2 =? b2) && Nat.eqb a3 b3 end.

(** std::sort, 104-106 (insertion sort; entries with equal keys are equal, so
    stability is unobservable). *)
Fixpoint bd_insert (addr : nat -> nat) (x : bd) (l : list bd) : list bd :=
  match l with
  | [] => [x]
  | y :: r => if key_ltb (bd_key addr y) (bd_key addr x) then y :: bd_insert addr x r else x :: l
  end.
Definition bd_sort (addr : nat -> nat) (l : list bd) : list bd := fold_right (bd_insert addr) [] l.

(** std::unique + erase, 107-111: drop an entry equal to the last one kept. *)
Fixpoint bd_unique_from (addr : nat -> nat) (last : bd) (l : list bd) : list bd :=
  match l with
  | [] => []
  | y :: r => if key_eqb (bd_key addr last) (bd_key addr y) then bd_unique_from addr last r
              else y :: bd_unique_from addr y r
  end.
Definition bd_unique (addr : nat -> nat) (l : list bd) : list bd :=
  match l with [] => [] | x :: r => x :: bd_unique_from addr x r end.

(** getBitDrivers, 85-113, and the whole-signal overload, 115-121. *)
Definition getBitDrivers (addr : nat -> nat) (nl : netlist) (name : str) (b : range) : list bd :=
  bd_unique addr (bd_sort addr
    (flat_map (fun e => match intersection (ebounds nl e) b with
                        | Some r => [(r, esrc e)] | None => [] end)
              (edges_of nl name))).
Definition getBitDrivers_all (addr : nat -> nat) (nl : netlist) (name : str) : list bd :=
  getBitDrivers addr nl name (Range 0 int32_max).

(** ** Sensitivity, 171-222 *)
Definition sens := (nat * edgekind)%type.
Definition sens_eqb (a b : sens) : bool := Nat.eqb (fst a) (fst b) && edgekind_eqb (snd a) (snd b).
(** collectFromState, 175-191. *)
Definition collect_edge (nl : netlist) (res : list sens) (e : edge) : list sens :=
  let k := akind (eatt nl (eid e)) in
  if edisabled nl e || edgekind_eqb k EKNone then res
  else if existsb (sens_eqb (esrc e, k)) res then res
  else res ++ [(esrc e, k)].
Definition collectFromState (nl : netlist) (res : list sens) (st : nat) : list sens :=
  fold_left (collect_edge nl) (nins nl st) res.

(** Body of the inner for loop, 207-219, threading visited, stack (top first) and
    result. *)
Definition wstate := (list nat * list nat * list sens)%type.
Definition walk_edge (nl : netlist) (w : wstate) (e : edge) : wstate :=
  match w with
  | (vis, stk, res) =>
    if edisabled nl e then w
    else if isState nl (etgt e) then (vis, stk, collectFromState nl res (etgt e))
    else if mem (etgt e) vis then w
    else (etgt e :: vis, etgt e :: stk, res)
  end.
(** The while loop, 204-220.  [None]: out of fuel. *)
Fixpoint sens_walk (nl : netlist) (fuel : nat) (w : wstate) : option (list sens) :=
  match w with
  | (vis, [], res) => Some res
  | (vis, cur :: stk, res) =>
      match fuel with
      | O => None
      | S k => sens_walk nl k (fold_left (walk_edge nl) (nouts nl cur) (vis, stk, res))
      end
  end.
Definition getSensitivity (nl : netlist) (n : nat) : option (list sens) :=
  if isState nl n then Some (collectFromState nl [] n)
  else sens_walk nl (List.length (gnodes (ng nl))) ([n], [n], []).

(** ** Constant drivers, 224-256 *)
Fixpoint const_scan (nl : netlist) (n : nat) (l : list nat) (acc : list nat) : list nat :=
  match l with
  | [] => acc
  | m :: r =>
      if Nat.eqb m n then const_scan nl n r acc
      else match nlkind nl m with
           | KConstant => const_scan nl n r (acc ++ [m])
           | KState => []
           | KPort => match nins nl m with
                      | [] => []          (* !isDriven(), NetlistNode.hpp 93 *)
                      | _ => const_scan nl n r acc
                      end
           | _ => const_scan nl n r acc
           end
  end.
Definition getConstantDrivers (nl : netlist) (n : nat) : option (list nat) :=
  option_map (fun l => const_scan nl n l []) (getCombFanIn nl n).

(** ** Black boxes, 284-311 *)
Inductive coverage := Outside | Boundary | Contained.
Fixpoint starts_with (s p : str) {struct p} : option str :=   (* remainder after the prefix *)
  match p, s with
  | [], _ => Some s
  | _ :: _, [] => None
  | c :: p', d :: s' => if ascii_dec c d then starts_with s' p' else None
  end.
Definition dot : ascii := "."%char.
Definition has_dot (s : str) : bool := existsb (fun c => if ascii_dec c dot then true else false) s.
Fixpoint bb_loop (isport : bool) (path : str) (bbs : list str) (res : coverage) : coverage :=
  match bbs with
  | [] => res
  | bb :: r =>
      match starts_with path bb with
      | None => bb_loop isport path r res
      | Some [] => Contained
      | Some (c :: rest) =>
          if ascii_dec c dot then
            if isport && negb (has_dot rest) then bb_loop isport path r Boundary else Contained
          else bb_loop isport path r res
      end
  end.
Definition getBlackBoxCoverage (bbs : list str) (inf : ninfo) : coverage :=
  match npath inf with
  | None => Outside
  | Some p => bb_loop (kind_eqb (nkind inf) KPort) p bbs Outside
  end.
