(** Model of the Python analyses in examples/ (common.py left out: it only builds the graph)
    and of the NetlistPath class of bindings/python/pyslang_netlist.cpp (318-340) with
    include/netlist/NetlistPath.hpp, on the graph of M_Serial.v.

    The objects handed to Python are the nodes themselves; pybind11 (external) converts
    vectors to lists in order.  A dict is an association list in insertion order, a set a
    list without repetition; tabulate (external) only lays out the rows. *)
From Coq Require Import Ascii String.
From Verif Require Import Base M_Graph M_Range M_Netlist M_Text M_Serial M_Path M_Query M_Report.
Notation length := List.length.

(** * Python values *)
(** Comparison of str: by code point, a proper prefix first. *)
Fixpoint str_leb (a b : str) : bool :=
  match a, b with
  | [], _ => true
  | _ :: _, [] => false
  | x :: a', y :: b' => (nat_of_ascii x <? nat_of_ascii y) || ((nat_of_ascii x =? nat_of_ascii y) && str_leb a' b')
  end.
(** sorted(): stable. *)
Fixpoint insert_by {A} (leb : A -> A -> bool) (x : A) (l : list A) : list A :=
  match l with
  | [] => [x]
  | y :: r => if leb x y then x :: l else y :: insert_by leb x r
  end.
Definition sorted_by {A} (leb : A -> A -> bool) (l : list A) : list A := fold_right (insert_by leb) [] l.
(** Sets of str. *)
Definition set_add (s : list str) (x : str) : list str := if existsb (str_eqb x) s then s else s ++ [x].
Definition set_of (l : list str) : list str := fold_left set_add l [].
(** d[k] = f(d[k]) for a defaultdict, or setdefault: a missing key starts from [e]. *)
Fixpoint dict_upd {K V} (eqb : K -> K -> bool) (e : V) (f : V -> V) (k : K) (d : list (K * V)) : list (K * V) :=
  match d with
  | [] => [(k, f e)]
  | (k', v) :: r => if eqb k k' then (k', f v) :: r else (k', v) :: dict_upd eqb e f k r
  end.
(** sep.join(l). *)
Fixpoint join (sep : str) (l : list str) : str :=
  match l with
  | [] => []
  | [x] => x
  | x :: r => x ++ sep ++ join sep r
  end.

Section Py.
Variable cval : Type.
Variable ctext : cval -> str.          (* ConstantValue::toString, external *)
Notation nlg := (nlg cval).
Notation ndata := (ndata cval).
Notation nl_of := (nl_of cval).

(** node.path and node.name as attributes of the bound classes,
    pyslang_netlist.cpp 241-283; [None]: no such attribute. *)
Definition py_path (d : ndata) : option str := data_path cval d.
Definition py_name (d : ndata) : option str :=
  match d with
  | DPort n _ _ _ _ | DVariable n _ _ _ | DState n _ _ _ => Some n
  | _ => None
  end.
(** Truth of an optional str. *)
Definition truthy (x : option str) : option str := match x with Some (c :: s) => Some (c :: s) | _ => None end.
Definition kind_hash (g : nlg) (n : nat) : str := nodeKindToString (data_kind cval (lnode g n)) ++ lit "#" ++ print_int (lid g n).

(** * constant_driven_sinks.py *)
(** 48-54. *)
Definition sink_path (d : ndata) : option str :=
  match d with
  | DVariable _ p _ _ => Some p
  | DPort _ p _ DOut _ => Some p
  | _ => None
  end.
(** c.value, pyslang_netlist.cpp 296-298. *)
Definition const_value (g : nlg) (c : nat) : str :=
  match lnode g c with DConstant v _ _ => ctext v | _ => [] end.
(** The loop, 47-62.  [None]: out of fuel in the query. *)
Fixpoint sinks_loop (g : nlg) (ns : list nat) (d : list (str * list str)) : option (list (str * list str)) :=
  match ns with
  | [] => Some d
  | n :: r =>
      match sink_path (lnode g n) with
      | None => sinks_loop g r d
      | Some p =>
          match getConstantDrivers (nl_of g) n with
          | None => None
          | Some [] => sinks_loop g r d
          | Some cs => sinks_loop g r (dict_upd str_eqb [] (fun s => fold_left set_add (map (const_value g) cs) s) p d)
          end
      end
  end.
(** find_constant_driven_sinks, 39-64. *)
Definition find_constant_driven_sinks (g : nlg) : option (list (str * list str)) :=
  option_map (fun d => map (fun x => (fst x, sorted_by str_leb (snd x))) (sorted_by (fun x y => str_leb (fst x) (fst y)) d))
             (sinks_loop g (gnodes (lg g)) []).

(** * clock_domain_map.py *)
(** source_path, 29-39. *)
Definition source_path (g : nlg) (n : nat) : str :=
  match truthy (py_path (lnode g n)) with
  | Some p => p
  | None => match truthy (py_name (lnode g n)) with
            | Some s => s
            | None => lit "<" ++ kind_hash g n ++ lit ">"
            end
  end.
(** pyslang.ast.EdgeKind names (external). *)
Definition edge_name (k : edgekind) : str :=
  match k with EKNone => lit "None" | EKPos => lit "PosEdge" | EKNeg => lit "NegEdge" | EKBoth => lit "BothEdges" end.
Definition domain := (str * str)%type.
Definition domain_eqb (a b : domain) : bool := str_eqb (fst a) (fst b) && str_eqb (snd a) (snd b).
Definition unclocked : domain := (lit "<unclocked>", lit "None").
Definition note_domain (st : str) (d : list (domain * list str)) (k : domain) : list (domain * list str) :=
  dict_upd domain_eqb [] (fun l => l ++ [st]) k d.
(** clock_domain_map, 42-63. *)
Fixpoint domains_loop (g : nlg) (ns : list nat) (d : list (domain * list str)) : option (list (domain * list str)) :=
  match ns with
  | [] => Some d
  | n :: r =>
      match lnode g n with
      | DState _ p _ _ =>
          match getSensitivity (nl_of g) n with
          | None => None
          | Some [] => domains_loop g r (note_domain p d unclocked)
          | Some l => domains_loop g r (fold_left (note_domain p) (map (fun x => (source_path g (fst x), edge_name (snd x))) l) d)
          end
      | _ => domains_loop g r d
      end
  end.
Definition clock_domain_map (g : nlg) : option (list (domain * list str)) := domains_loop g (gnodes (lg g)) [].
(** The rows of main, 116-125: clock, edge, number and names of the registers. *)
Definition domain_leb (a b : domain) : bool :=
  let u x := str_eqb (fst x) (lit "<unclocked>") in
  match u a, u b with
  | false, true => true
  | true, false => false
  | _, _ => if str_eqb (fst a) (fst b) then str_leb (snd a) (snd b) else str_leb (fst a) (fst b)
  end.
Definition domain_rows (d : list (domain * list str)) : list (str * str * nat * list str) :=
  map (fun x => (fst (fst x), snd (fst x), length (set_of (snd x)), sorted_by str_leb (set_of (snd x))))
      (sorted_by (fun x y => domain_leb (fst x) (fst y)) d).

(** * unconnected_inputs.py *)
(** node.path.startswith(prefix) and "." not in node.path[len(prefix):], 47 and 77. *)
Definition directly_under (top path : str) : bool :=
  match starts_with path (top ++ lit ".") with
  | Some rest => negb (has_dot rest)
  | None => false
  end.
(** The tests of 41-49 and 72-80: path and bounds of an undriven input. *)
Definition undriven_input (g : nlg) (top : str) (n : nat) : option (str * range) :=
  match lnode g n with
  | DPort _ p _ DIn b =>
      if directly_under top p then None
      else match ins (nst (lg g) n) with [] => Some (p, b) | _ => None end
  | _ => None
  end.
(** find_unconnected_inputs, 32-51. *)
Definition find_unconnected_inputs (g : nlg) (top : str) : list nat :=
  filter (fun n => match undriven_input g top n with Some _ => true | None => false end) (gnodes (lg g)).
(** The loop 71-83; lo, hi = node.bounds gives lower and upper. *)
Definition by_path (g : nlg) (top : str) : list (str * list (Z * Z)) :=
  fold_left (fun d n => match undriven_input g top n with
                        | Some (p, b) => dict_upd str_eqb [] (fun l => l ++ [(lower b, upper b)]) p d
                        | None => d
                        end) (gnodes (lg g)) [].
Definition pair_leb (a b : Z * Z) : bool := ((fst a <? fst b) || ((fst a =? fst b) && (snd a <=? snd b)))%Z.
(** 87-94; [last] is merged[-1], the result lists what is final in order. *)
Fixpoint merge_ranges (last : Z * Z) (l : list (Z * Z)) : list (Z * Z) :=
  match l with
  | [] => [last]
  | x :: r => if (fst x <=? snd last + 1)%Z then merge_ranges (fst last, Z.max (snd last) (snd x)) r
              else last :: merge_ranges x r
  end.
Definition merged (l : list (Z * Z)) : list (Z * Z) :=
  match sorted_by pair_leb l with
  | [] => []                       (* ranges[0] would raise; never empty *)
  | x :: r => merge_ranges x r
  end.
(** find_undriven_bit_ranges, 54-96. *)
Definition find_undriven_bit_ranges (g : nlg) (top : str) : list (str * list (Z * Z)) :=
  map (fun x => (fst x, merged (snd x))) (sorted_by (fun x y => str_leb (fst x) (fst y)) (by_path g top)).

(** * driver_lookup.py *)
(** describe, 35-46. *)
Definition describe (g : nlg) (n : nat) : str :=
  let kind := nodeKindToString (data_kind cval (lnode g n)) in
  match truthy (py_path (lnode g n)) with
  | Some p => kind ++ lit "(" ++ p ++ lit ")"
  | None => match truthy (py_name (lnode g n)) with
            | Some s => kind ++ lit "(" ++ s ++ lit ")"
            | None => kind_hash g n
            end
  end.
(** driver_row, 49-61. *)
Definition row_label (signal : str) (lo hi : Z) : str :=
  if (hi =? lo)%Z then signal ++ lit "[" ++ print_int lo ++ lit "]"
  else signal ++ lit "[" ++ print_int hi ++ lit ":" ++ print_int lo ++ lit "]".
Definition driver_row (g : nlg) (signal : str) (lo hi : Z) : str * str :=
  (row_label signal lo hi,
   match M_Query.getDrivers (nl_of g) signal (Range lo hi) with
   | [] => lit "(no drivers)"
   | ds => join (lit ", ") (sorted_by str_leb (set_of (map (describe g) ds)))
   end).

(** * connectivity_check.py *)
Inductive pyres (A : Type) := PyOk (a : A) | PyValueError (msg : str) | PyFuel.
Arguments PyOk {A} a. Arguments PyValueError {A} msg. Arguments PyFuel {A}.
(** path_exists, 17-30. *)
Definition path_exists (g : nlg) (source sink : str) : pyres bool :=
  let i := mk_index (nl_of g) in
  match lookup_idx i source, lookup_idx i sink with
  | None, _ => PyValueError (lit "Node not found: " ++ source)
  | Some _, None => PyValueError (lit "Node not found: " ++ sink)
  | Some a, Some b => match pf_find (nl_of g) a b with
                      | PFail => PyFuel
                      | PPath p => PyOk (negb (match p with [] => true | _ => false end))
                      end
  end.
End Py.

(** * NetlistPath *)
(** Outcome of an access from Python: a node, or undefined behaviour (reading past the end
    of the vector; the binding makes no check, and front and back of an empty vector are
    undefined). *)
Inductive access := ANode (n : nat) | AUndef.
Definition of_opt (x : option nat) : access := match x with Some n => ANode n | None => AUndef end.
(** operator[], NetlistPath.hpp 25-27, bound at pyslang_netlist.cpp 328-331. *)
Definition np_getitem (p : list nat) (i : nat) : access := of_opt (nth_error p i).
(** front, back, NetlistPath.hpp 41-43. *)
Definition np_front (p : list nat) : access := of_opt (hd_error p).
Definition np_back (p : list nat) : access := match p with [] => AUndef | n :: r => ANode (last r n) end.
(** size, empty, 36-38; begin and end, 20-21. *)
Definition np_len (p : list nat) : nat := length p.
Definition np_empty (p : list nat) : bool := match p with [] => true | _ => false end.
Definition np_iter (p : list nat) : list nat := p.
(** add and reverse, 29-33. *)
Definition np_add (p : list nat) (n : nat) : list nat := p ++ [n].
Definition np_reverse (p : list nat) : list nat := rev p.
