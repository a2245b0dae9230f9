(** Specification of a run of the tool. *)
From Coq Require Import Ascii String.
From Verif Require Import Base M_Graph M_Netlist M_Text M_Serial M_Report M_Cli M_Main S_Load.

(** Neither help nor version is asked for. *)
Definition works (m : mopts) : Prop := m_help m <> Some true /\ m_version m <> Some true.
(** A file name, "-" being standard output. *)
Definition to_file (f : str) (x : content) (e : effect) : Prop :=
  (f = lit "-" /\ e = Stdout x) \/ (f <> lit "-" /\ e = File f x).
(** The output of a command is where the options say. *)
Inductive delivered (m : mopts) : output -> effect -> Prop :=
| D_file h t f js e : m_output m = Some f -> (js = true <-> m_format m = Some (lit "json")) -> to_file f (CRows js h t) e -> delivered m (OTable h t) e
| D_stdout h t js : m_output m = None -> (js = true <-> m_format m = Some (lit "json")) -> delivered m (OTable h t) (Stdout (CRows js h t))
| D_reports l c : delivered m (OReports l) (Stdout (CReports c l))
| D_dot f t e : to_file f (CDot t) e -> delivered m (ODot f t) e.
Definition is_stats (e : effect) : Prop := e = Stderr CStats \/ e = Stdout CStatsJson.
Definition on_stderr (e : effect) : Prop := exists x, e = Stderr x.
Fixpoint stdout_of (l : list effect) : list content :=
  match l with [] => [] | Stdout x :: r => x :: stdout_of r | _ :: r => stdout_of r end.

(** The same effect, up to the order of the rows of a table. *)
Inductive same_effect : effect -> effect -> Prop :=
| SE_rows_out js h t t' : Permutation t t' -> same_effect (Stdout (CRows js h t)) (Stdout (CRows js h t'))
| SE_rows_file f js h t t' : Permutation t t' -> same_effect (File f (CRows js h t)) (File f (CRows js h t'))
| SE_eq e : same_effect e e.
Inductive same_outcome : outcome -> outcome -> Prop :=
| SO_exit l l' c : Forall2 same_effect l l' -> same_outcome (Exit l c) (Exit l' c)
| SO_crash : same_outcome Crash Crash.

(** Options with other files to save and load. *)
Definition with_files (m : mopts) (save load : option str) : mopts :=
  MOpts (m_help m) (m_version m) (m_nocolours m) (m_stats m) (m_statsjson m) (m_noresolve m) (m_noprop m)
        (m_blackboxes m) (m_format m) (m_output m) save load (m_query m).
(** A flag given the value false, dropped. *)
Definition drop (x : option bool) : option bool := match x with Some false => None | _ => x end.
(** A command that answers with a table or a DOT file (after aliasing a lone end point). *)
Definition tabular (o : options) : Prop :=
  o_registers o <> None \/
  (o_loops o = None /\
   (o_dot o <> None \/ o_find o <> None \/ o_findre o <> None \/ o_fanout o <> None \/ o_fanin o <> None \/
    o_sens o <> None \/ o_const o <> None \/ o_drivers o <> None)).

Section SMain.
Variable cval : Type.
Variable cbad : cval.
Variable ctext : cval -> str.
Variable cparse : str -> option cval.
Variable w : world cval.
(** The netlist a run works on: loaded, or built with the options. *)
Inductive Netlist_of (m : mopts) : nlg cval -> Prop :=
| N_load f j g : m_load m = Some f -> w_read w f = FJson j ->
    deserialize cbad cparse (w_next w) j nl_empty = (g, Ok tt) -> Netlist_of m g
| N_build a b : m_load m = None -> (a = false <-> m_noresolve m = Some true) -> (b = false <-> m_noprop m = Some true) ->
    Netlist_of m (w_build w a b (m_blackboxes m)).
End SMain.
