(** C119-C123: runs of the tool. *)
From Coq Require Import Ascii String.
From Verif Require Import Base M_Range M_Graph S_Graph M_Netlist M_Text M_Serial S_Serial M_Report M_Cli M_Main S_Load S_Main P_Main Properties_Serial Properties_Load.
Notation length := List.length.

(** A world for the examples: the netlist of Properties_Load.v is built; the files [d] and
    [n.json] can be written; [n.json] holds the netlist. *)
Definition ew : world str :=
  World true true true true true (fun _ _ _ => l_base false) (fun f => if str_eqb f (lit "n.json") then FJson (ser_str (l_base false)) else FNone)
        (fun f => str_eqb f (lit "d") || str_eqb f (lit "n.json")) 1 (fun n => n) l_order (fun _ => None) (fun _ => true).
Definition emain := main str [] (fun s => s) (fun s => Some s) ew.
Definition eopts (o : options) : mopts := MOpts None None None None None None None [] None None None None o.
Definition erows : list row := [[lit "[1:0]"; lit "assignment"; lit "a.sv:1:2"]].
Definition eheader : row := [lit "Bits"; lit "Driver"; lit "Location"].

(** * C119, with two runs: what a run prints as a table or DOT is printed by a run that loads
    what the first run saved. *)
Theorem c119_two_runs_partial : forall cval (cbad : cval) ctext cparse w1 w2 m f j l,
  main cval cbad ctext cparse w1 (with_files m (Some f) None) = Exit l 0 -> works m -> In (File f (CNetlist j)) l ->
  w_read w2 f = FJson j -> w_cmdline w2 = true -> w_write w2 = w_write w1 ->
  (forall a b, w_addr w1 a = w_addr w1 b -> a = b) -> (forall a b, w_addr w2 a = w_addr w2 b -> a = b) ->
  Permutation (w_order w1) (w_order w2) -> w_regex w2 = w_regex w1 -> (0 <= w_next w2)%Z -> tabular (alias (m_query m)) ->
  (forall g, Netlist_of cval cbad cparse w1 (with_files m None None) g ->
     Storable g /\ Plain cbad ctext cparse g /\ NoParallel g /\ (o_dot (m_query m) <> None -> Numbered g (w_next w2)) /\
     (o_loops (m_query m) <> None -> Increasing g)) ->
  same_outcome (main cval cbad ctext cparse w1 (with_files m None None)) (main cval cbad ctext cparse w2 (with_files m None (Some f))).
Proof. exact save_load_run. Qed.
Print Assumptions c119_two_runs_partial.
Example c119_two_runs_example :
  emain (with_files (eopts (ask_drivers (lit "x"))) (Some (lit "n.json")) None) = Exit [File (lit "n.json") (CNetlist (ser_str (l_base false)))] 0 /\
  emain (with_files (eopts (ask_drivers (lit "x"))) None None) = Exit [Stdout (CRows false eheader erows)] 0 /\
  emain (with_files (eopts (ask_drivers (lit "x"))) None (Some (lit "n.json"))) = Exit [Stdout (CRows false eheader erows)] 0 /\
  tabular (alias (ask_drivers (lit "x"))) /\ works (eopts (ask_drivers (lit "x"))).
Proof.
  split; [vm_compute; reflexivity|]. split; [vm_compute; reflexivity|]. split; [vm_compute; reflexivity|].
  split; [right; split; [reflexivity|]; do 7 right; discriminate|split; discriminate].
Qed.

(** * C120. A run that exits with 0 has done what was asked.  Of --save-netlist and the
    commands it has done the first only, and with --load-netlist the second only. *)
Theorem c120_done_partial : forall cval (cbad : cval) ctext cparse w m l,
  main cval cbad ctext cparse w m = Exit l 0 -> works m ->
  (exists e f, m_load m = None /\ m_save m = Some f /\
     (exists g, Netlist_of cval cbad cparse w m g /\ to_file f (CNetlist (serialize ctext g)) e) /\ l = e :: stats m) \/
  ((m_load m <> None \/ m_save m = None) /\ exists g x e, Netlist_of cval cbad cparse w m g /\
     run cval ctext (w_addr w) (w_order w) (w_regex w) (negb (given (m_load m))) (w_live w) g (m_query m) = COk x /\
     delivered m x e /\ l = e :: stats m).
Proof. exact main_0. Qed.
Print Assumptions c120_done_partial.
Theorem c120_save_refuted : ~ (forall cval (cbad : cval) ctext cparse w m l f,
  main cval cbad ctext cparse w m = Exit l 0 -> works m -> m_save m = Some f -> f <> lit "-" -> exists j, In (File f (CNetlist j)) l).
Proof.
  intros H. destruct (H str [] (fun s => s) (fun s => Some s) ew (with_files (eopts (ask_drivers (lit "x"))) (Some (lit "d")) (Some (lit "n.json")))
    [Stdout (CRows false eheader erows)] (lit "d")) as (j & [K|[]]); try discriminate; [vm_compute; reflexivity|split; discriminate|reflexivity].
Qed.
Print Assumptions c120_save_refuted.
Theorem c120_command_refuted : ~ (forall cval (cbad : cval) ctext cparse w m l g x,
  main cval cbad ctext cparse w m = Exit l 0 -> works m -> Netlist_of cval cbad cparse w m g ->
  run cval ctext (w_addr w) (w_order w) (w_regex w) (negb (given (m_load m))) (w_live w) g (m_query m) = COk x ->
  exists e, In e l /\ delivered m x e).
Proof.
  intros H. destruct (H str [] (fun s => s) (fun s => Some s) ew (with_files (eopts (ask_drivers (lit "x"))) (Some (lit "d")) None)
    [File (lit "d") (CNetlist (ser_str (l_base false)))] (l_base false) (OTable eheader erows)) as (e & [<-|[]] & D).
  - vm_compute. reflexivity.
  - split; discriminate.
  - apply (N_build str [] (fun s => Some s) ew _ true true); [reflexivity| |]; split; discriminate.
  - vm_compute. reflexivity.
  - inversion D as [h t f js e O|h t js O| |]. discriminate O.
Qed.
Print Assumptions c120_command_refuted.
(** In general: the file to save to is ignored with --load-netlist, the command with
    --save-netlist. *)
Theorem c120_save_ignored : forall cval (cbad : cval) ctext cparse w m f s,
  main cval cbad ctext cparse w (with_files m (Some s) (Some f)) = main cval cbad ctext cparse w (with_files m None (Some f)).
Proof. reflexivity. Qed.
Print Assumptions c120_save_ignored.
Theorem c120_command_ignored : forall cval (cbad : cval) ctext cparse w m o f, m_load m = None -> m_save m = Some f ->
  main cval cbad ctext cparse w m = main cval cbad ctext cparse w
    (MOpts (m_help m) (m_version m) (m_nocolours m) (m_stats m) (m_statsjson m) (m_noresolve m) (m_noprop m)
       (m_blackboxes m) (m_format m) (m_output m) (m_save m) (m_load m) o).
Proof.
  intros cval cbad ctext cparse w m o f L S. unfold main, build_path, json_format. cbn [m_help m_version m_load m_save m_format]. rewrite L, S. reflexivity.
Qed.
Print Assumptions c120_command_ignored.
Example c120_example : emain (with_files (eopts (ask_drivers (lit "x"))) (Some (lit "n.json")) None) =
  Exit [File (lit "n.json") (CNetlist (ser_str (l_base false)))] 0.
Proof. vm_compute. reflexivity. Qed.

(** * C121. A run that fails writes nothing to files or standard output; the code is 2 exactly
    if the compiler rejects the options. *)
Theorem c121_failure : forall cval (cbad : cval) ctext cparse w m l c,
  main cval cbad ctext cparse w m = Exit l c -> c <> 0 -> Forall on_stderr l /\ (c = 1 \/ c = 2) /\
  (c = 2 <-> w_cmdline w = true /\ works m /\
     (m_format m = None \/ m_format m = Some (lit "json") \/ m_format m = Some (lit "table")) /\ m_load m = None /\ w_process w = false).
Proof. exact main_n. Qed.
Print Assumptions c121_failure.
Theorem c121_files : forall cval (cbad : cval) ctext cparse w m l c f x,
  main cval cbad ctext cparse w m = Exit l c -> In (File f x) l ->
  f <> lit "-" /\ (m_output m = Some f \/ m_save m = Some f \/ o_dot (m_query m) = Some f).
Proof. exact main_files. Qed.
Print Assumptions c121_files.
Example c121_example : emain (eopts (ask_drivers (lit "z"))) = Exit [Stderr (CError (lit "could not find node: z"))] 1.
Proof. vm_compute. reflexivity. Qed.
Example c121_example_2 : main str [] (fun s => s) (fun s => Some s)
  (World true false true true true (fun _ _ _ => l_base false) (fun _ => FNone) (fun _ => true) 1 (fun n => n) l_order (fun _ => None) (fun _ => true))
  (eopts (ask_drivers (lit "x"))) = Exit [] 2.
Proof. reflexivity. Qed.
Example c121_example_3 : emain (eopts (ask_dot (lit "d"))) <> Crash /\ emain (eopts (ask_dot (lit "e"))) = Exit [Stderr (CError (lit "could not write file: e"))] 1.
Proof. split; [vm_compute; discriminate|vm_compute; reflexivity]. Qed.

(** * C122. With --format json, standard output is one JSON document or empty. *)
Definition one_json (l : list content) : Prop :=
  l = [] \/ (exists h t, l = [CRows true h t]) \/ l = [CStatsJson].
Theorem c122_json_partial : forall cval (cbad : cval) ctext cparse w m l,
  main cval cbad ctext cparse w m = Exit l 0 -> works m -> (m_load m <> None \/ m_save m = None) -> tabular (alias (m_query m)) ->
  o_dot (m_query m) = None -> m_format m = Some (lit "json") ->
  exists h t, stdout_of l =
    (match m_output m with None => [CRows true h t] | Some f => if str_eqb f (lit "-") then [CRows true h t] else [] end) ++
    (if given (m_statsjson m) then [CStatsJson] else []).
Proof. exact main_json. Qed.
Print Assumptions c122_json_partial.
Definition jopts (stats : option bool) : mopts := MOpts None None None None stats None None [] (Some (lit "json")) None None None (ask_drivers (lit "x")).
Theorem c122_json_refuted : ~ (forall cval (cbad : cval) ctext cparse w m l,
  main cval cbad ctext cparse w m = Exit l 0 -> works m -> (m_load m <> None \/ m_save m = None) -> tabular (alias (m_query m)) ->
  o_dot (m_query m) = None -> m_format m = Some (lit "json") -> one_json (stdout_of l)).
Proof.
  intros H. destruct (H str [] (fun s => s) (fun s => Some s) ew (jopts (Some true)) [Stdout (CRows true eheader erows); Stdout CStatsJson]) as [K|[(h & t & K)|K]]; try discriminate.
  - vm_compute. reflexivity.
  - split; discriminate.
  - right. reflexivity.
  - right. split; [reflexivity|]. do 7 right. discriminate.
  - reflexivity.
  - reflexivity.
Qed.
Print Assumptions c122_json_refuted.
Example c122_example : emain (jopts None) = Exit [Stdout (CRows true eheader erows)] 0.
Proof. vm_compute. reflexivity. Qed.

(** * C123. A flag that is given the value false acts as if it was not given. *)
Theorem c123_flags_partial : forall cval (cbad : cval) ctext cparse w m,
  main cval cbad ctext cparse w
    (MOpts (drop (m_help m)) (drop (m_version m)) (m_nocolours m) (m_stats m) (m_statsjson m) (drop (m_noresolve m)) (drop (m_noprop m))
       (m_blackboxes m) (m_format m) (m_output m) (m_save m) (m_load m) (m_query m)) =
  main cval cbad ctext cparse w m.
Proof. exact main_drop. Qed.
Print Assumptions c123_flags_partial.
Definition sopts (s j c : option bool) : mopts := MOpts None None c s j None None [] None None None None (ask_drivers (lit "x")).
Theorem c123_stats_refuted : ~ (forall cval (cbad : cval) ctext cparse w m,
  main cval cbad ctext cparse w
    (MOpts (m_help m) (m_version m) (m_nocolours m) (drop (m_stats m)) (drop (m_statsjson m)) (m_noresolve m) (m_noprop m)
       (m_blackboxes m) (m_format m) (m_output m) (m_save m) (m_load m) (m_query m)) =
  main cval cbad ctext cparse w m).
Proof.
  intros H. specialize (H str [] (fun s => s) (fun s => Some s) ew (sopts (Some false) (Some false) None)). vm_compute in H. discriminate.
Qed.
Print Assumptions c123_stats_refuted.
(** Colours: a report of diagnostics. *)
Definition l_ask_path : options := Opts None None None None None None None None None None (Some (lit "y")) (Some (lit "x")) [] [].
Definition copts (c : option bool) : mopts := MOpts None None c None None None None [] None None None None l_ask_path.
Theorem c123_colours_refuted : ~ (forall cval (cbad : cval) ctext cparse w m,
  main cval cbad ctext cparse w
    (MOpts (m_help m) (m_version m) (drop (m_nocolours m)) (m_stats m) (m_statsjson m) (m_noresolve m) (m_noprop m)
       (m_blackboxes m) (m_format m) (m_output m) (m_save m) (m_load m) (m_query m)) =
  main cval cbad ctext cparse w m).
Proof.
  intros H. specialize (H str [] (fun s => s) (fun s => Some s) ew (copts (Some false))). vm_compute in H. discriminate.
Qed.
Print Assumptions c123_colours_refuted.
Example c123_example : emain (sopts (Some false) None None) = Exit [Stdout (CRows false eheader erows); Stderr CStats] 0 /\
  emain (sopts None None None) = Exit [Stdout (CRows false eheader erows)] 0.
Proof. split; vm_compute; reflexivity. Qed.
Example c123_help_example : emain (MOpts (Some false) None None None None None None [] None None None None (ask_drivers (lit "x"))) =
  Exit [Stdout (CRows false eheader erows)] 0 /\
  emain (MOpts (Some true) None None None None None None [] None None None None (ask_drivers (lit "x"))) = Exit [Stdout CHelp] 0.
Proof. split; vm_compute; reflexivity. Qed.
