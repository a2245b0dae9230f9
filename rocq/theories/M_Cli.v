(** Model of the analysis commands of tools/driver/driver.cpp (416-560 and 767-1055), on the
    graph of M_Serial.v.  The command-line library (external) delivers the option values;
    output is the table, report or DOT text that is printed. *)
From Coq Require Import Ascii String.
From Verif Require Import Base M_Graph M_Range M_Netlist M_Text M_Serial M_Path M_Query M_Cycle M_Dot M_Report.

(** The option variables, 216-372: flags are std::optional<bool>, selectors
    std::optional<std::string>, filters vectors. *)
Record options := Opts {
  o_registers : option bool; o_loops : option bool; o_dot : option str;
  o_find : option str; o_findre : option str; o_fanout : option str; o_fanin : option str;
  o_sens : option str; o_const : option str; o_drivers : option str;
  o_from : option str; o_to : option str;
  o_scopes : list str; o_names : list str }.
Definition set_fanout (o : options) (v : option str) : options :=
  Opts (o_registers o) (o_loops o) (o_dot o) (o_find o) (o_findre o) v (o_fanin o)
       (o_sens o) (o_const o) (o_drivers o) (o_from o) (o_to o) (o_scopes o) (o_names o).
Definition set_fanin (o : options) (v : option str) : options :=
  Opts (o_registers o) (o_loops o) (o_dot o) (o_find o) (o_findre o) (o_fanout o) v
       (o_sens o) (o_const o) (o_drivers o) (o_from o) (o_to o) (o_scopes o) (o_names o).

(** has_value(). *)
Definition given {A} (x : option A) : bool := match x with Some _ => true | None => false end.

(** 775-779. *)
Definition alias (o : options) : options :=
  if given (o_from o) && negb (given (o_to o)) && negb (given (o_fanout o)) then set_fanout o (o_from o)
  else if given (o_to o) && negb (given (o_from o)) && negb (given (o_fanin o)) then set_fanin o (o_to o)
  else o.

(** passesFilters, 471-491. *)
Definition matches (text pat : str) : bool := match wildcardMatch text pat with Some b => b | None => false end.
Definition passesFilters (scopes names : list str) (path : str) : bool :=
  (match scopes with [] => true | _ => existsb (pathInScope path) scopes end) &&
  (match names with [] => true | _ => existsb (matches path) names end).

(** findNodes, NetlistGraph.cpp 258-269, and findNodesRegex, 271-282, with the test of a name
    as an argument; [order]: the iteration order of the hash map, a list of its keys. *)
Definition find_by (order : list str) (i : index) (test : str -> bool) : list nat :=
  flat_map (fun name => if test name then idx_get i name else []) order.
Definition findNodes (order : list str) (i : index) (pat : str) : list nat :=
  find_by order i (fun name => matches name pat).

(** Outcomes: [CMsg] an error message and exit code 1; [CBad] any other failure (SLANG_ASSERT,
    SLANG_UNREACHABLE, an unexpected exception, out of fuel). *)
Inductive cres (A : Type) := COk (a : A) | CMsg (m : str) | CBad.
Arguments COk {A} a. Arguments CMsg {A} m. Arguments CBad {A}.
Definition cbind {A B} (x : cres A) (f : A -> cres B) : cres B :=
  match x with COk a => f a | CMsg m => CMsg m | CBad => CBad end.
Definition of_option {A} (x : option A) : cres A := match x with Some a => COk a | None => CBad end.
Definition of_rres {A} (x : rres A) : cres A := match x with ROk a => COk a | _ => CBad end.
Fixpoint ctraverse {A B} (f : A -> cres B) (l : list A) : cres (list B) :=
  match l with
  | [] => COk []
  | a :: r => cbind (f a) (fun b => cbind (ctraverse f r) (fun bs => COk (b :: bs)))
  end.

(** Utilities::Row and Table. *)
Notation row := (list str).
Inductive output :=
| OTable (header : row) (rows : list row)
| OReports (l : list report)
| ODot (file text : str).

Section Cli.
Variable cval : Type.
Variable ctext : cval -> str.          (* ConstantValue::toString, external *)
Variable addr : nat -> nat.            (* address order of nodes, as in M_Query.v *)
Variable order : list str.             (* iteration order of nodeIndex *)
Variable regex : str -> option (str -> bool).  (* std::regex of a pattern (external); [None]: it throws *)
Variable diags : bool.                 (* diagnostics exist, as in M_Report.v *)
Variable live : nat -> bool.
Notation nlg := (nlg cval).
Notation ndata := (ndata cval).

(** getLocation, NetlistNode.hpp 63-65 and overrides. *)
Definition getLocation (d : ndata) : option loc :=
  match d with
  | DPort _ _ l _ _ | DVariable _ _ l _ | DState _ _ l _ => Some l
  | DAssignment l | DConditional l | DCase l | DConstant _ _ l => Some l
  | DMerge | DNone => None
  end.
(** loc ? loc->toString(graph.fileTable) : std::string() *)
Definition loc_cell (g : nlg) (n : nat) : cres str :=
  match getLocation (lnode g n) with
  | Some l => of_rres (loc_text (lfiles g) l)
  | None => COk []
  end.
Definition path_of (g : nlg) (n : nat) : option str := data_path cval (lnode g n).
Definition value_or (x : option str) (d : str) : str := match x with Some s => s | None => d end.

(** describeDriver, 534-559. *)
Definition describeDriver (d : ndata) : str :=
  match d with
  | DPort _ p _ dir _ =>
      (match dir with DIn => lit "input" | DOut => lit "output" | _ => lit "inout" end) ++ lit " port " ++ p
  | DVariable _ p _ _ => lit "variable " ++ p
  | DState _ p _ _ => lit "register " ++ p
  | DConstant v _ _ => lit "constant " ++ ctext v
  | DAssignment _ => lit "assignment"
  | DConditional _ => lit "conditional"
  | DCase _ => lit "case"
  | DMerge => lit "merge"
  | DNone => lit "unknown"
  end.
(** ast::toString(EdgeKind) (external). *)
Definition edge_text (k : edgekind) : str :=
  match k with
  | EKNone => lit "None" | EKPos => lit "PosEdge" | EKNeg => lit "NegEdge" | EKBoth => lit "BothEdges"
  end.

(** The index, built on the first lookup; the graph does not change any more. *)
Definition the_index (g : nlg) : index := mk_index (nl_of cval g).
Definition not_found (what name : str) : str := what ++ lit ": " ++ name.
(** The lookups with their error messages. *)
Definition require (g : nlg) (what name : str) : cres nat :=
  match lookup_idx (the_index g) name with
  | Some n => COk n
  | None => CMsg (not_found what name)
  end.
Definition requireNode (g : nlg) (name : str) : cres nat := require g (lit "could not find node") name.

(** A name and location row, e.g. 789-790. *)
Definition name_row (g : nlg) (n : nat) (name : str) : cres row :=
  cbind (loc_cell g n) (fun l => COk [name; l]).
Definition name_header : row := [lit "Name"; lit "Location"].

(** --report-registers, 781-796. *)
Definition run_registers (g : nlg) (o : options) : cres output :=
  let l := filter (fun n => match data_kind cval (lnode g n) with KState => true | _ => false end) (gnodes (lg g)) in
  let l := filter (fun n => passesFilters (o_scopes o) (o_names o) (value_or (path_of g n) [])) l in
  cbind (ctraverse (fun n => name_row g n (value_or (path_of g n) [])) l) (fun t => COk (OTable name_header t)).

(** --comb-loops, 799-813. *)
Definition run_loops (g : nlg) : cres output :=
  cbind (of_option (getAllLoops (nl_of cval g))) (fun cycles =>
  cbind (ctraverse (fun c => of_rres (reportPath cval g diags live c)) cycles) (fun rs => COk (OReports rs))).

(** The path of 843-851 and 1019-1040. *)
Definition no_path (a b : str) : str := lit "no path between " ++ a ++ lit " and " ++ b.
Definition find_path (g : nlg) (a b : str) (s e : nat) : cres (list nat) :=
  match pf_find (nl_of cval g) s e with
  | PFail => CBad
  | PPath [] => CMsg (no_path a b)
  | PPath p => COk p
  end.

(** --netlist-dot, 818-862. *)
Definition dot_scope (g : nlg) (o : options) : cres (option (list nat)) :=
  match o_fanout o, o_fanin o, o_from o, o_to o with
  | Some x, _, _, _ =>
      cbind (requireNode g x) (fun n =>
      cbind (of_option (getCombFanOut (nl_of cval g) n)) (fun l => COk (Some (n :: l))))
  | None, Some x, _, _ =>
      cbind (requireNode g x) (fun n =>
      cbind (of_option (getCombFanIn (nl_of cval g) n)) (fun l => COk (Some (n :: l))))
  | None, None, Some a, Some b =>
      cbind (requireNode g a) (fun s =>
      cbind (requireNode g b) (fun e =>
      cbind (find_path g a b s e) (fun p => COk (Some p))))
  | None, None, _, _ => COk None
  end.
Definition run_dot (g : nlg) (o : options) (file : str) : cres output :=
  cbind (dot_scope g o) (fun f =>
  cbind (of_option (render cval ctext g f)) (fun t => COk (ODot file t))).

(** --find / --find-regex, 865-883; the rows of the nodes found. *)
Definition run_found (g : nlg) (o : options) (nodes : list nat) : cres output :=
  let l := filter (fun n => passesFilters (o_scopes o) (o_names o) (value_or (path_of g n) [])) nodes in
  cbind (ctraverse (fun n => name_row g n (value_or (path_of g n) (lit "(unnamed)"))) l)
        (fun t => COk (OTable name_header t)).
Definition run_find (g : nlg) (o : options) (pat : str) : cres output :=
  run_found g o (findNodes order (the_index g) pat).
Definition run_findre (g : nlg) (o : options) (pat : str) : cres output :=
  match regex pat with
  | Some test => run_found g o (find_by order (the_index g) test)
  | None => CBad
  end.

(** --fan-out, 886-908; --fan-in, 911-933. *)
Definition run_cone (fan : netlist -> nat -> option (list nat)) (g : nlg) (o : options) (x : str) : cres output :=
  cbind (requireNode g x) (fun n =>
  cbind (of_option (fan (nl_of cval g) n)) (fun l =>
  let l := filter (fun m => match path_of g m with
                            | Some p => passesFilters (o_scopes o) (o_names o) p
                            | None => false
                            end) l in
  cbind (ctraverse (fun m => name_row g m (value_or (path_of g m) [])) l)
        (fun t => COk (OTable name_header t)))).

(** --sensitivity, 939-970. *)
Definition add_new (acc : list sens) (s : sens) : list sens :=
  if existsb (fun x => sens_eqb x s) acc then acc else acc ++ [s].
Fixpoint gather (g : nlg) (nodes : list nat) (acc : list sens) : cres (list sens) :=
  match nodes with
  | [] => COk acc
  | n :: r => cbind (of_option (getSensitivity (nl_of cval g) n)) (fun l => gather g r (fold_left add_new l acc))
  end.
Definition run_sens (g : nlg) (o : options) (x : str) : cres output :=
  match findNodes order (the_index g) x with
  | [] => CMsg (not_found (lit "could not find node") x)
  | nodes =>
      cbind (gather g nodes []) (fun l =>
      let l := filter (fun s => passesFilters (o_scopes o) (o_names o) (value_or (path_of g (fst s)) [])) l in
      cbind (ctraverse (fun s => cbind (loc_cell g (fst s)) (fun t =>
               COk [value_or (path_of g (fst s)) (lit "(unnamed)"); edge_text (snd s); t])) l)
            (fun t => COk (OTable [lit "Name"; lit "Edge"; lit "Location"] t)))
  end.

(** --constant-drivers, 973-993. *)
Definition run_const (g : nlg) (x : str) : cres output :=
  cbind (requireNode g x) (fun n =>
  cbind (of_option (getConstantDrivers (nl_of cval g) n)) (fun l =>
  cbind (ctraverse (fun m => match lnode g m with
                             | DConstant v _ _ => name_row g m (ctext v)
                             | _ => CBad
                             end) l)
        (fun t => COk (OTable [lit "Value"; lit "Location"] t)))).

(** --drivers, 996-1017. *)
Definition run_drivers (g : nlg) (x : str) : cres output :=
  let (path, r) := parseNameAndRange x in
  cbind (requireNode g path) (fun _ =>
  let ds := match r with
            | Some r => getBitDrivers addr (nl_of cval g) path r
            | None => getBitDrivers_all addr (nl_of cval g) path
            end in
  cbind (ctraverse (fun d => cbind (loc_cell g (snd d)) (fun t =>
           COk [range_toString (fst d); describeDriver (lnode g (snd d)); t])) ds)
        (fun t => COk (OTable [lit "Bits"; lit "Driver"; lit "Location"] t))).

(** --from with --to, 1020-1049. *)
Definition run_path (g : nlg) (a b : str) : cres output :=
  cbind (require g (lit "could not find start point") a) (fun s =>
  cbind (require g (lit "could not find finish point") b) (fun e =>
  cbind (find_path g a b s e) (fun p =>
  cbind (of_rres (reportPath cval g diags live p)) (fun r => COk (OReports [r]))))).

(** 781-1053: the first command that is asked for. *)
Definition dispatch (g : nlg) (o : options) : cres output :=
  if given (o_registers o) then run_registers g o
  else if given (o_loops o) then run_loops g
  else match o_dot o with Some f => run_dot g o f | None =>
       match o_find o with Some p => run_find g o p | None =>
       match o_findre o with Some p => run_findre g o p | None =>
       match o_fanout o with Some x => run_cone getCombFanOut g o x | None =>
       match o_fanin o with Some x => run_cone getCombFanIn g o x | None =>
       match o_sens o with Some x => run_sens g o x | None =>
       match o_const o with Some x => run_const g x | None =>
       match o_drivers o with Some x => run_drivers g x | None =>
       match o_from o, o_to o with
       | Some a, Some b => run_path g a b
       | _, _ => CMsg (lit "no action specified")
       end end end end end end end end end.
Definition run (g : nlg) (o : options) : cres output := dispatch g (alias o).

(** emitTable, 438-466: the JSON form, up to the text of JSON (external); std::tolower in the C
    locale (external). *)
Definition lower_char (c : ascii) : ascii :=
  let n := nat_of_ascii c in
  if Nat.leb 65 n && Nat.leb n 90 then ascii_of_nat (n + 32) else c.
Fixpoint json_row (header r : row) : list (str * json) :=
  match header, r with
  | h :: hs, c :: cs => (map lower_char h, JStr c) :: json_row hs cs
  | _, _ => []
  end.
Definition emit_json (header : row) (t : list row) : json := JArr (map (fun r => JObj (json_row header r)) t).
End Cli.
Arguments COk {A} a. Arguments CMsg {A} m. Arguments CBad {A}.
