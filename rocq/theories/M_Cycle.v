(** Model of source/CycleDetector.hpp and source/CombLoops.cpp. *)
From Verif Require Import Base M_Graph M_Range M_Netlist M_DFS M_Path.

(** std::find on the recursion stack followed by the suffix copy,
    CycleDetector.hpp 20-26.  [None]: not found. *)
Fixpoint suffix_from (n : nat) (l : list nat) : option (list nat) :=
  match l with
  | [] => None
  | x :: r => if Nat.eqb x n then Some l else suffix_from n r
  end.

(** std::min_element by ID, 29-31: the first element no other is smaller than. *)
Fixpoint min_elem (id : nat -> nat) (cur : nat) (l : list nat) : nat :=
  match l with
  | [] => cur
  | x :: r => if Nat.ltb (id x) (id cur) then min_elem id x r else min_elem id cur r
  end.

(** std::rotate to the (first) position holding [m], 32. *)
Fixpoint rotate_to (m : nat) (pre l : list nat) : list nat :=
  match l with
  | [] => rev pre
  | x :: r => if Nat.eqb x m then l ++ rev pre else rotate_to m (x :: pre) r
  end.

Definition canon (id : nat -> nat) (c : list nat) : list nat :=
  match c with
  | [] => []
  | h :: t => rotate_to (min_elem id h t) [] c
  end.

(** CycleDetectionVisitor, 16-56: recursionStack (bottom first) and cycles. *)
Definition cvis := (list nat * list (list nat))%type.
Definition cyc_event (id : nat -> nat) (v : cvis) (ev : event) : cvis :=
  match ev with
  | ENode n => (fst v ++ [n], snd v)                       (* 39-42 *)
  | EEdge _ => v                                           (* 44 *)
  | EPop => (removelast (fst v), snd v)                    (* 46-50 *)
  | EVisited n => match suffix_from n (fst v) with         (* 18-37 *)
                  | None => v
                  | Some c => (fst v, snd v ++ [canon id c])
                  end
  end.
Definition cyc_visit (id : nat -> nat) (tr : list event) : cvis :=
  fold_left (cyc_event id) tr ([], []).

(** The loop over all nodes, 74-95: visitedNodes and the cycles found so far.
    [None]: the search ran out of fuel. *)
Fixpoint detect_loop (nl : netlist) (ns : list nat) (visited : list nat) (acc : list (list nat))
  : option (list (list nat)) :=
  match ns with
  | [] => Some acc
  | n :: r =>
      if mem n visited then detect_loop nl r visited acc
      else match dfs_fwd nl (pred_comb nl) n with
           | None => None
           | Some tr =>
               let cs := snd (cyc_visit (fun m => nid (ninf nl m)) tr) in
               detect_loop nl r (n :: visited ++ concat cs) (acc ++ cs)
           end
  end.

(** std::lexicographical_compare on IDs, 101-106. *)
Fixpoint lex_ltb (a b : list nat) : bool :=
  match a, b with
  | _, [] => false
  | [], _ :: _ => true
  | x :: a', y :: b' => if Nat.ltb x y then true else if Nat.ltb y x then false else lex_ltb a' b'
  end.

(** std::set deduplication (72, 94, 98), here keeping the last occurrence, and the sort on line 107.
    The std::set orders by node address; only the set of its elements is modelled,
    which is all the final sort depends on when node IDs are distinct. *)
Fixpoint insert_cycle (id : nat -> nat) (c : list nat) (l : list (list nat)) : list (list nat) :=
  match l with
  | [] => [c]
  | d :: r => if lex_ltb (map id c) (map id d) then c :: l else d :: insert_cycle id c r
  end.
Definition sort_cycles (id : nat -> nat) (l : list (list nat)) : list (list nat) :=
  fold_right (insert_cycle id) [] l.

(** detectCycles, 70-110; CombLoops::getAllLoops, CombLoops.cpp 21-26. *)
Definition getAllLoops (nl : netlist) : option (list (list nat)) :=
  option_map (fun cs => sort_cycles (fun m => nid (ninf nl m)) (nodup (list_eq_dec Nat.eq_dec) cs))
             (detect_loop nl (gnodes (ng nl)) [] []).
