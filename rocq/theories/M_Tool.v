(** Model of slang-report: tools/report/report.cpp and include/report/*.hpp.  The elaborated
    design (external) is a tree of symbols with their hierarchical paths, as the walks see it;
    lookupName, getDrivers and the source manager (external) are parameters or part of the tree.
    The AST dump is the list of symbols handed to ASTSerializer (external). *)
From Coq Require Import Ascii String.
From Verif Require Import Base M_Range M_Netlist M_Text M_Serial M_Cli.

(** Utilities::locationStr, Utilities.hpp 20-29; [None]: no buffer. *)
Definition location_str (l : option (str * Z * Z)) : str :=
  match l with
  | Some (f, line, col) => f ++ lit ":" ++ print_int line ++ lit ":" ++ print_int col
  | None => lit "?"
  end.

(** What the visitors look at in a symbol: ports (with the net type of the symbol behind them,
    if that is a net), variables, nets, other value symbols, anything else. *)
Inductive content :=
| CPort (dir : direction) (width : Z) (net : option str)
| CVar (type : str) (width : Z)
| CNet (net type : str) (width : Z)
| CValue
| COther.
(** Instances are entered through their body; [uninst]: InstanceFlags::Uninstantiated. *)
Inductive skind := SInst (uninst : bool) | SScope | SLeaf.
(** A symbol; [ms]: the members of the scope or of the instance body. *)
Inductive symbol := Symbol (id : nat) (path : str) (loc : option (str * Z * Z)) (c : content) (k : skind) (ms : list symbol).
Definition s_id (s : symbol) : nat := let (i, _, _, _, _, _) := s in i.
Definition s_path (s : symbol) : str := let (_, p, _, _, _, _) := s in p.
Definition s_loc (s : symbol) : option (str * Z * Z) := let (_, _, l, _, _, _) := s in l.
Definition s_content (s : symbol) : content := let (_, _, _, c, _, _) := s in c.
Definition s_kind (s : symbol) : skind := let (_, _, _, _, k, _) := s in k.
Definition s_members (s : symbol) : list symbol := let (_, _, _, _, _, ms) := s in ms.

(** hasGlobChar, report.cpp 47-50. *)
Fixpoint find_dots (s : str) : bool :=
  match s with
  | [] => false
  | c :: r => match s with
              | a :: b :: d :: _ => (aeq a c_dot && aeq b c_dot && aeq d c_dot) || find_dots r
              | _ => false
              end
  end.
Definition hasGlobChar (s : str) : bool :=
  existsb (fun c => aeq c c_star || aeq c c_q) s || find_dots s.

(** seenSymbols and scopeSymbols, 180-181. *)
Notation picked := (list nat * list symbol)%type.
Definition pick (s : symbol) (st : picked) : picked :=
  if existsb (Nat.eqb (s_id s)) (fst st) then st else (s_id s :: fst st, snd st ++ [s]).
(** collectGlobMatches, 55-74, for one member. *)
Fixpoint collect (pat : str) (m : symbol) (st : picked) {struct m} : picked :=
  match m with
  | Symbol _ path _ _ k ms =>
      let st1 := match path with [] => st | _ => if matches path pat then pick m st else st end in
      match k with
      | SInst true | SLeaf => st1
      | SInst false | SScope => fold_left (fun s x => collect pat x s) ms st1
      end
  end.
Definition collectGlobMatches (scope : symbol) (pat : str) (st : picked) : picked :=
  fold_left (fun s x => collect pat x s) (s_members scope) st.

(** ReportVisitorBase::nameMatches, 46-57. *)
Definition nameMatches (filters : list str) (name : str) : bool :=
  match filters with [] => true | _ => existsb (matches name) filters end.

(** The three visitors: the symbols they handle. *)
Inductive what := Ports | Variables | Drivers.
Definition handled (w : what) (c : content) : bool :=
  match w, c with
  | Ports, CPort _ _ _ => true
  | Variables, (CVar _ _ | CNet _ _ _) => true
  | Drivers, (CVar _ _ | CNet _ _ _ | CValue) => true
  | _, _ => false
  end.

(** Options, report.cpp 82-142. *)
Record toptions := TOpts {
  t_ports : option bool; t_variables : option bool; t_drivers : option bool;
  t_ast : option str; t_format : option str; t_scopes : list str; t_names : list str }.

(** Outcomes; [TFail]: an exception with its message, exit code 1. *)
Inductive tres := TTable (header : row) (rows : list row) | TJson (j : json) | TAst (file : str) (l : list symbol) | TFail (m : str).

(** A driver: LSP text, procedural or continuous, bounds, location. *)
Record driver := Driver { v_text : str; v_proc : bool; v_bounds : range; v_loc : option (str * Z * Z) }.

Section Tool.
Variable root : symbol.
Variable lookupName : str -> option symbol.
Variable getDrivers : symbol -> list driver.
Variable enter : bool.   (* whether ASTVisitor enters uninstantiated bodies *)

(** ASTVisitor (external): a handled symbol is not entered, others are. *)
Fixpoint visit (w : what) (s : symbol) : list symbol :=
  match s with
  | Symbol _ _ _ c k ms =>
      if handled w c then [s]
      else match k with
           | SLeaf => []
           | SInst true => if enter then flat_map (visit w) ms else []
           | SInst false | SScope => flat_map (visit w) ms
           end
  end.

(** The items collected: ReportPorts 61-73, ReportVariables 25-38 and 73-77, ReportDrivers
    90-107. *)
Definition items (w : what) (names : list str) (l : list symbol) : list symbol :=
  filter (fun s => nameMatches names (s_path s)) (flat_map (visit w) l).

(** tableHeader. *)
Definition header (w : what) : row :=
  match w with
  | Ports => [lit "Direction"; lit "Name"; lit "Width"; lit "Net Type"; lit "Location"]
  | Variables => [lit "Name"; lit "Type"; lit "Width"; lit "Kind"; lit "Drivers"; lit "Location"]
  | Drivers => [lit "Value"; lit "Range"; lit "Driver"; lit "Type"; lit "Location"]
  end.
(** The marker of driver rows, three bytes. *)
Definition arrow : str := ["226"%char; "134"%char; "179"%char].
Definition driver_kind (d : driver) : str := if v_proc d then lit "proc" else lit "cont".
Definition net_name (n : option str) : str := match n with Some x => x | None => lit "var" end.
Definition count (s : symbol) : Z := Z.of_nat (List.length (getDrivers s)).
(** appendItemRows of the three visitors. *)
Definition item_rows (w : what) (s : symbol) : list row :=
  let loc := location_str (s_loc s) in
  match w, s_content s with
  | Ports, CPort dir width net => [[directionToString dir; s_path s; print_int width; net_name net; loc]]
  | Variables, CVar type width => [[s_path s; type; print_int width; lit "var"; print_int (count s); loc]]
  | Variables, CNet net type width => [[s_path s; type; print_int width; net; print_int (count s); loc]]
  | Drivers, _ =>
      [s_path s; []; []; []; loc] ::
      map (fun d => [arrow; range_toString (v_bounds d); v_text d; driver_kind d; location_str (v_loc d)]) (getDrivers s)
  | _, _ => []
  end.
(** emitJsonItem of the three visitors. *)
Definition driver_json (d : driver) : json :=
  JObj [(lit "range", JStr (range_toString (v_bounds d))); (lit "driver", JStr (v_text d));
        (lit "kind", JStr (driver_kind d)); (lit "location", JStr (location_str (v_loc d)))].
Definition variable_json (s : symbol) (type : str) (width : Z) (kind : str) : json :=
  JObj [(lit "name", JStr (s_path s)); (lit "type", JStr type); (lit "width", JNum width);
        (lit "kind", JStr kind); (lit "drivers", JNum (count s)); (lit "location", JStr (location_str (s_loc s)))].
Definition item_json (w : what) (s : symbol) : json :=
  match w, s_content s with
  | Ports, CPort dir width net =>
      JObj [(lit "name", JStr (s_path s)); (lit "direction", JStr (directionToString dir)); (lit "width", JNum width);
            (lit "netType", JStr (net_name net)); (lit "location", JStr (location_str (s_loc s)))]
  | Variables, CVar type width => variable_json s type width (lit "var")
  | Variables, CNet net type width => variable_json s type width net
  | Drivers, _ =>
      JObj [(lit "value", JStr (s_path s)); (lit "location", JStr (location_str (s_loc s)));
            (lit "drivers", JArr (map driver_json (getDrivers s)))]
  | _, _ => JNull
  end.

(** The scope loop, 180-203. *)
Definition quoted (a x b : str) : str := a ++ x ++ b.
Fixpoint resolve (scopes : list str) (st : picked) : picked + str :=
  match scopes with
  | [] => inl st
  | s :: r =>
      if hasGlobChar s then
        let st' := collectGlobMatches root s st in
        if List.length (snd st') =? List.length (snd st)
        then inr (quoted (lit "scope '") s (lit "' matched no symbols"))
        else resolve r st'
      else match lookupName s with
           | None => inr (quoted (lit "scope '") s (lit "' not found"))
           | Some x => resolve r (pick x st)
           end
  end.

(** report of ReportVisitorBase, 72-88, and emit, report.cpp 243-262. *)
Definition emit (w : what) (js : bool) (names : list str) (l : list symbol) : tres :=
  let it := items w names (match l with [] => [root] | _ => l end) in
  if js then TJson (JArr (map (item_json w) it)) else TTable (header w) (flat_map (item_rows w) it).

(** 220-233. *)
Definition is_json (f : option str) : option bool :=
  match f with
  | None => Some false
  | Some x => if str_eqb x (lit "json") then Some true else if str_eqb x (lit "table") then Some false else None
  end.
(** main, 180-283; a design without errors. *)
Definition report_main (o : toptions) : tres :=
  match resolve (t_scopes o) ([], []) with
  | inr m => TFail m
  | inl (_, l) =>
      match t_ast o with
      | Some f => TAst f (match l with [] => [root] | _ => l end)
      | None =>
          match is_json (t_format o) with
          | None => TFail (quoted (lit "unknown --format value '") (match t_format o with Some x => x | None => [] end)
                            (lit "'; expected 'table' or 'json'"))
          | Some js =>
              if given (t_ports o) then emit Ports js (t_names o) l
              else if given (t_variables o) then emit Variables js (t_names o) l
              else if given (t_drivers o) then emit Drivers js (t_names o) l
              else TFail (lit "no action specified; pass --ports, --variables, --drivers, or --ast-json")
          end
      end
  end.
End Tool.
