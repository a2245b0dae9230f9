(** Model of main in tools/driver/driver.cpp (211-437, 561-765 and 1051-1059): the order of
    the checks, loading, building, saving, the commands of M_Cli.v, the statistics and the
    exit code.  External: the command line, the compiler and its diagnostics, the file system
    and the clock; the text of help, version and statistics is not modelled, nor are
    --debug and --quiet (407-413, which also only test that a value is given), the compiler's
    own output, and what --comb-loops has printed when an exception ends it. *)
From Coq Require Import Ascii String.
From Verif Require Import Base M_Graph M_Netlist M_Text M_Serial M_Report M_Cli.

(** The option variables of 217-372 that M_Cli.v does not have. *)
Record mopts := MOpts {
  m_help : option bool; m_version : option bool; m_nocolours : option bool;
  m_stats : option bool; m_statsjson : option bool;
  m_noresolve : option bool; m_noprop : option bool;
  m_blackboxes : list str; m_format : option str; m_output : option str;
  m_save : option str; m_load : option str;
  m_query : options }.

(** Output. *)
Inductive content :=
| CHelp | CVersion
| CRows (json : bool) (header : row) (rows : list row)
| CReports (colours : bool) (l : list report)
| CDot (text : str)
| CNetlist (j : json)
| CStats | CStatsJson
| CError (m : str).
(** Where it goes. *)
Inductive effect := Stdout (x : content) | Stderr (x : content) | File (name : str) (x : content).
(** [Exit]: the effects in order and the exit code; [Crash]: an assertion, UB or out of fuel,
    or an exception whose message is not modelled. *)
Inductive outcome := Exit (l : list effect) (code : nat) | Crash.

(** What a file to load holds: unreadable, not JSON, or a document. *)
Inductive fileres := FNone | FText | FJson (j : json).

Section Main.
Variable cval : Type.
Variable cbad : cval.
Variable ctext : cval -> str.
Variable cparse : str -> option cval.
Notation nlg := (nlg cval).

(** The world: results of the external calls. *)
Record world := World {
  w_cmdline : bool;                       (* parseCommandLine, 374 *)
  w_process : bool;                       (* processOptions, 710 *)
  w_parse : bool;                         (* parseAllSources, 715 *)
  w_elab : bool; w_analysis : bool;       (* reportDiagnostics, 732 and 739 *)
  w_build : bool -> bool -> list str -> nlg;  (* graph.build with resolveAssignBits, propCutsAcrossPorts, blackBoxes *)
  w_read : str -> fileres;                (* OS::readFile *)
  w_write : str -> bool;                  (* OS::writeFile succeeds; otherwise it throws *)
  w_next : Z;                             (* NetlistNode::nextID *)
  w_addr : nat -> nat; w_order : list str; w_regex : str -> option (str -> bool); w_live : nat -> bool }.
Variable w : world.

Definition dash : str := lit "-".
(** OS::writeFile (external): "-" is standard output. *)
Definition write_file (f : str) (x : content) : effect := if str_eqb f dash then Stdout x else File f x.
Definition can_write (f : str) : bool := str_eqb f dash || w_write w f.
(** printStats, 682-689: has_value. *)
Definition stats (m : mopts) : list effect :=
  (if given (m_stats m) then [Stderr CStats] else []) ++ (if given (m_statsjson m) then [Stdout CStatsJson] else []).
(** 415-430; [None]: unknown value. *)
Definition json_format (m : mopts) : option bool :=
  match m_format m with
  | None => Some false
  | Some f => if str_eqb f (lit "json") then Some true else if str_eqb f (lit "table") then Some false else None
  end.
Definition unknown_format (f : str) : str := lit "unknown --format value '" ++ f ++ lit "'; expected 'table' or 'json'".

(** SLANG_CATCH, 1053-1056. *)
Definition fail (m : str) : outcome := Exit [Stderr (CError m)] 1.
Definition no_write (f : str) : str := lit "could not write file: " ++ f.
(** A write, then the statistics. *)
Definition finish (m : mopts) (f : option str) (x : content) : outcome :=
  match f with
  | None => Exit (Stdout x :: stats m) 0
  | Some f => if can_write f then Exit (write_file f x :: stats m) 0 else fail (no_write f)
  end.
(** What is written for the result of a command: emitTable 440-466 with writeOutput 431-438,
    OS::print of reports, writeFile of DOT; then printStats and return 0. *)
Definition emit (m : mopts) (js colours : bool) (x : output) : outcome :=
  match x with
  | OTable h t => finish m (m_output m) (CRows js h t)
  | OReports l => finish m None (CReports colours l)
  | ODot f t => finish m (Some f) (CDot t)
  end.
Definition query (m : mopts) (js diags : bool) (g : nlg) : outcome :=
  match run cval ctext (w_addr w) (w_order w) (w_regex w) diags (w_live w) g (m_query m) with
  | COk x => emit m js (diags && negb (given (m_nocolours m))) x
  | CMsg e => fail e
  | CBad => Crash
  end.

(** value_or(false), 748-749. *)
Definition set (x : option bool) : bool := match x with Some b => b | None => false end.
Definition built (m : mopts) : nlg := w_build w (negb (set (m_noresolve m))) (negb (set (m_noprop m))) (m_blackboxes m).
(** 692-765. *)
Definition load_path (m : mopts) (js : bool) (f : str) : outcome :=
  match w_read w f with
  | FNone => fail (lit "could not read file: " ++ f)
  | FText => fail (lit "parse error")
  | FJson j => match deserialize cbad cparse (w_next w) j nl_empty with
               | (g, Ok tt) => query m js false g
               | (_, Throw) => fail (lit "invalid netlist")
               | (_, Undef) => Crash
               end
  end.
Definition build_path (m : mopts) (js : bool) : outcome :=
  if negb (w_process w) then Exit [] 2
  else if negb (w_parse w) then Exit [] 1
  else if negb (w_elab w) then Exit [] 1
  else if negb (w_analysis w) then Exit [] 1
  else let g := built m in
       match m_save m with
       | Some f => finish m (Some f) (CNetlist (serialize ctext g))
       | None => query m js true g
       end.
(** 374-430 and the rest. *)
Definition main (m : mopts) : outcome :=
  if negb (w_cmdline w) then Exit [] 1
  else if match m_help m with Some true => true | _ => false end then Exit [Stdout CHelp] 0
  else if match m_version m with Some true => true | _ => false end then Exit [Stdout CVersion] 0
  else match json_format m with
       | None => fail (unknown_format (match m_format m with Some f => f | None => [] end))
       | Some js => match m_load m with
                    | Some f => load_path m js f
                    | None => build_path m js
                    end
       end.
End Main.
Arguments World {cval}.
Arguments w_cmdline {cval}. Arguments w_process {cval}. Arguments w_parse {cval}. Arguments w_elab {cval}. Arguments w_analysis {cval}.
Arguments w_build {cval}. Arguments w_read {cval}. Arguments w_write {cval}. Arguments w_next {cval}.
Arguments w_addr {cval}. Arguments w_order {cval}. Arguments w_regex {cval}. Arguments w_live {cval}.
