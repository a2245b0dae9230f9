(** C119: commands on a netlist that was saved and loaded. *)
From Coq Require Import Ascii String.
From Verif Require Import Base M_Range M_Graph S_Graph M_Netlist M_Text M_Serial S_Serial M_Report M_Cli S_Load P_Load3 Properties_Serial.
Notation length := List.length.

(** * C119: every command gives the same answer on the loaded netlist.  The address order and
    the order of the name table may differ between the two processes.  For --comb-loops the
    IDs must grow along the node list, for --netlist-dot they must be those given out again
    on loading. *)
Theorem c119_same_answer_partial : forall cval (cbad : cval) ctext cparse addr addr' order order' regex live live' (g : nlg cval) next o,
  Storable g -> Plain cbad ctext cparse g -> NoParallel g -> (0 <= next)%Z ->
  (forall a b, addr a = addr b -> a = b) -> (forall a b, addr' a = addr' b -> a = b) -> Permutation order order' ->
  (o_loops o <> None -> Increasing g) -> (o_dot o <> None -> Numbered g next) ->
  exists g', deserialize cbad cparse next (serialize ctext g) nl_empty = (g', Ok tt) /\
    same_answer (run cval ctext addr order regex false live g o) (run cval ctext addr' order' regex false live' g' o).
Proof. exact save_load. Qed.
Print Assumptions c119_same_answer_partial.

(** Row by row the same, whatever the addresses, for the commands that do not follow in-edges
    or sort by address. *)
Theorem c119_same_text_partial : forall cval (cbad : cval) ctext cparse addr addr' order regex live live' (g : nlg cval) next o,
  Storable g -> Plain cbad ctext cparse g -> NoParallel g -> (0 <= next)%Z -> keeps_order (alias o) ->
  (o_loops o <> None -> Increasing g) -> (o_dot o <> None -> Numbered g next) ->
  exists g', deserialize cbad cparse next (serialize ctext g) nl_empty = (g', Ok tt) /\
    run cval ctext addr order regex false live g o = run cval ctext addr' order regex false live' g' o.
Proof. exact save_load_eq. Qed.
Print Assumptions c119_same_text_partial.

(** ** Examples *)
Definition ask_drivers (x : str) : options := Opts None None None None None None None None None (Some x) None None [] [].
Definition ask_dot (f : str) : options := Opts None None (Some f) None None None None None None None None None [] [].
Definition ask_in (x : str) : options := Opts None None None None None None (Some x) None None None None None [] [].
Definition l_base (two : bool) : nlg str :=
  let g := NL [lit "a.sv"] [] empty_graph (fun _ => DNone) (fun _ => 0%Z) (fun _ => edge0) [sy "x"; sy "y"] in
  let g := nl_node g (DPort (lit "y") (lit "y") lc0 DIn (Range 0 3)%Z) in
  let g := nl_node g (DPort (lit "x") (lit "x") lc0 DOut (Range 0 3)%Z) in
  let g := nl_node g (DAssignment lc0) in
  let g := nl_edge g 0 2 (ED EKNone (Some 1) (Range 0 3)%Z false) in
  let g := nl_edge g 2 1 (ED EKNone (Some 0) (Range 0 1)%Z false) in
  if two then nl_edge g 2 1 (ED EKNone (Some 0) (Range 2 3)%Z false) else g.
Lemma l_reach two : reachable outEdgeIndexThreshold (lg (l_base two)).
Proof.
  destruct two; [exists [OAddNode; OAddNode; OAddNode; OAddNewEdge 0 2; OAddNewEdge 2 1; OAddNewEdge 2 1]|
                 exists [OAddNode; OAddNode; OAddNode; OAddNewEdge 0 2; OAddNewEdge 2 1]]; eexists; reflexivity.
Qed.
Lemma l_storable two : Storable (l_base two).
Proof.
  destruct two; constructor; try exact (l_reach _); try solve [cbn; repeat constructor; cbn; intuition discriminate].
  all: try solve [intros n H; in_cases H; rng]; try solve [intros n H; in_cases H; exact ok_lc0];
    try solve [intros n H; in_cases H; cbn; repeat split; try exact ok_lc0; rng].
  all: intros n e H1 H2; in_cases H1; in_cases H2; cbn; (split; [rng|intros i [= <-]; lia]).
Qed.
Lemma l_plain two : Plain ([] : str) (fun s => s) (fun s => Some s) (l_base two).
Proof.
  unfold Plain. destruct two.
  all: match goal with |- Forall _ ?x => let v := eval vm_compute in x in change x with v end.
  all: repeat (apply Forall_cons || apply Forall_nil || split); unfold plain_data, plain_range; cbn; try lia; reflexivity.
Qed.
Lemma l_single : NoParallel (l_base false).
Proof. intros n H. in_cases H; cbn; repeat constructor; cbn; tauto. Qed.
Lemma l_numbered two : Numbered (l_base two) 1.
Proof. intros i n H. destruct two; destruct i as [|[|[|i]]]; cbn in H; try (destruct i; discriminate H); injection H as <-; reflexivity. Qed.
Definition l_order : list str := [lit "y"; lit "x"].
Definition l_run (g : nlg str) (o : options) := run str (fun s => s) (fun n => n) l_order (fun _ => None) false (fun _ => true) g o.
Definition l_loaded (two : bool) : nlg str := fst (deser_str 1 (ser_str (l_base two)) nl_empty).
Example c119_nonvacuous :
  Storable (l_base false) /\ Plain ([] : str) (fun s => s) (fun s => Some s) (l_base false) /\ NoParallel (l_base false) /\
  Numbered (l_base false) 1 /\ Increasing (l_base false) /\
  l_run (l_base false) (ask_drivers (lit "x")) =
    COk (OTable [lit "Bits"; lit "Driver"; lit "Location"] [[lit "[1:0]"; lit "assignment"; lit "a.sv:1:2"]]).
Proof.
  repeat match goal with |- _ /\ _ => split end;
    [apply l_storable|apply l_plain|apply l_single|apply l_numbered|exact (numbered_increasing _ _ _ (l_numbered false))|vm_compute; reflexivity].
Qed.
Example c119_dot_example : exists t, l_run (l_base false) (ask_dot (lit "o")) = COk (ODot (lit "o") t) /\
  l_run (l_loaded false) (ask_dot (lit "o")) = COk (ODot (lit "o") t).
Proof. eexists. split; vm_compute; reflexivity. Qed.
Example c119_in_example : exists t, l_run (l_base false) (ask_in (lit "x")) = COk (OTable [lit "Name"; lit "Location"] t) /\
  length t = 2 /\ l_run (l_loaded false) (ask_in (lit "x")) = COk (OTable [lit "Name"; lit "Location"] t).
Proof. eexists. split; [vm_compute; reflexivity|]. split; vm_compute; reflexivity. Qed.

(** Without the condition on parallel edges it is false: the upper half of [x] has a driver,
    and has none after saving and loading. *)
Theorem c119_same_answer_refuted : ~ (forall cval (cbad : cval) ctext cparse addr order regex live (g g' : nlg cval) next o,
  Storable g -> Plain cbad ctext cparse g -> (0 <= next)%Z -> (forall a b, addr a = addr b -> a = b) ->
  o_loops o = None -> o_dot o = None ->
  deserialize cbad cparse next (serialize ctext g) nl_empty = (g', Ok tt) ->
  same_answer (run cval ctext addr order regex false live g o) (run cval ctext addr order regex false live g' o)).
Proof.
  intros H. specialize (H str [] (fun s => s) (fun s => Some s) (fun n => n) l_order (fun _ => None) (fun _ => true) (l_base true) (l_loaded true) 1%Z
    (ask_drivers (lit "x")) (l_storable true) (l_plain true) ltac:(lia) ltac:(auto) eq_refl eq_refl).
  assert (D : deserialize ([] : str) (fun s => Some s) 1 (serialize (fun s => s) (l_base true)) nl_empty = (l_loaded true, Ok tt)).
  { unfold l_loaded, deser_str, ser_str. apply injective_projections; vm_compute; reflexivity. }
  specialize (H D). 
  assert (A : run str (fun s => s) (fun n => n) l_order (fun _ => None) false (fun _ => true) (l_base true) (ask_drivers (lit "x")) =
    COk (OTable [lit "Bits"; lit "Driver"; lit "Location"] [[lit "[1:0]"; lit "assignment"; lit "a.sv:1:2"]; [lit "[3:2]"; lit "assignment"; lit "a.sv:1:2"]])) by (vm_compute; reflexivity).
  assert (B : run str (fun s => s) (fun n => n) l_order (fun _ => None) false (fun _ => true) (l_loaded true) (ask_drivers (lit "x")) =
    COk (OTable [lit "Bits"; lit "Driver"; lit "Location"] [[lit "[3:2]"; lit "assignment"; lit "a.sv:1:2"]])) by (vm_compute; reflexivity).
  rewrite A, B in H. inversion H as [h t t' P| | | |]. apply Permutation_length in P. discriminate.
Qed.
Print Assumptions c119_same_answer_refuted.
