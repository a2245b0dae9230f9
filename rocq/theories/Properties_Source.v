(** C143: a design with bits resolved, with no assumption about cuts. *)
From Verif Require Import Base M_Graph M_Range M_Netlist M_DFS M_Path M_Query M_Text M_Annot M_Interval M_Heap M_Drivers M_Pending M_DFA M_Builder M_Slice M_Port M_Inst M_Flow M_Proc
  S_Graph S_Reach S_Netlist S_Annot S_Pending S_Query S_Inst S_Slice S_Port S_Flow S_Proc S_Prec S_Prec2 S_Total S_Drv S_Cuts S_Cuts2 P_Cuts Properties_Flow Properties_Prec Properties_Exact Properties_Proc Properties_Seq Properties_Prec2 Properties_Total Properties_Drv Properties_Cuts.

(** Whether cuts are propagated or not: the netlist is built, its edges are exactly the
    flows between pieces of the source, cones are exactly what leads to a node through
    them, and every bit of a variable has at most one driver. *)
Theorem c143_resolved : forall {V} (vz : V) symw prop nm ports conns asgs,
  wf_design vz true (fun _ => None) ports conns asgs -> outer_first conns -> port_widths symw conns ->
  one_driver ports conns asgs -> no_port_names ports asgs -> small_indices ports conns asgs -> (forall a b, nm a = nm b -> a = b) ->
  exists s nl, flow vz true (cuts_of prop symw conns) nm ports conns asgs = Some (s, nl) /\ one_reported nl /\
  exists role, stands_for vz true ports conns asgs (bnodes (fb s)) nl role /\ exactly vz true ports conns asgs nl role /\
  forall n cone, getCombFanIn nl n = Some cone -> forall m, role m <> XConst -> (In m cone <-> Reach (fed vz true conns nl role) n m).
Proof.
  intros V vz symw prop nm ports conns asgs W O P D N Si I. pose proof (c141_cuts_known vz symw true prop ports conns asgs W O P eq_refl) as W'.
  destruct (c113_build_succeeds vz true (cuts_of prop symw conns) nm ports conns asgs W' D N Si) as (s & nl & F).
  exists s, nl. split; [exact F|]. split; [exact (proj1 (c139_one_driver vz _ nm ports conns asgs W' D N I s nl F))|].
  exact (c112_cone_exact vz true _ nm ports conns asgs W' D N s nl F).
Qed.
Print Assumptions c143_resolved.
(** The same for the connections that the traversal of an instance tree finds. *)
Theorem c143_tree : forall {V} (vz : V) owner_of pats own (tops : list (@sym V)) evs symw nm ports conns asgs,
  traverse pats true own tops = Some evs -> (forall t, In t tops -> scoped owner_of own t) -> NoDup (flat_map ids tops) -> ~ In own (flat_map ids tops) ->
  map seen conns = cut_conns evs -> wf_design vz true (fun _ => None) ports conns asgs -> port_widths symw conns ->
  one_driver ports conns asgs -> no_port_names ports asgs -> small_indices ports conns asgs -> (forall a b, nm a = nm b -> a = b) ->
  exists s nl, flow vz true (hints_of (recordCuts symw (fun _ => None) (cut_conns evs))) nm ports conns asgs = Some (s, nl) /\ one_reported nl /\
  exists role, stands_for vz true ports conns asgs (bnodes (fb s)) nl role /\ exactly vz true ports conns asgs nl role /\
  forall n cone, getCombFanIn nl n = Some cone -> forall m, role m <> XConst -> (In m cone <-> Reach (fed vz true conns nl role) n m).
Proof.
  intros V vz owner_of pats own tops evs symw nm ports conns asgs E Sc Nd No Q W P D N Si I. rewrite <- Q.
  exact (c143_resolved vz symw true nm ports conns asgs W (c141_visit_order owner_of pats own tops evs conns E Sc Nd No Q) P D N Si I).
Qed.
Print Assumptions c143_tree.
(** With procedural blocks, whose writes are aligned at the recorded cuts: the netlist is
    built, every edge is a flow and annotated with what is passed along it, and what is in
    the cone of a port is connected to it on a way that leaves no register. *)
Theorem c143_blocks : forall {V} (vz : V) symw prop nm width ports conns asgs procs,
  wf_design vz true (fun _ => None) ports conns asgs -> outer_first conns -> port_widths symw conns ->
  one_driver ports conns asgs -> no_port_names ports asgs -> small_indices ports conns asgs ->
  blocks_apart vz true (cuts_of prop symw conns) ports conns asgs procs -> small_blocks procs -> (forall s, 0 <= width s)%Z ->
  exists s nl, pflow vz true (cuts_of prop symw conns) nm ports width conns asgs procs = Some (s, nl) /\
  (exists role, pieces vz true width ports conns asgs procs (bnodes (fb s)) nl role /\ pannotates vz true width conns nm nl role) /\
  pcones_connected vz true (cuts_of prop symw conns) nm width ports conns asgs procs.
Proof.
  intros V vz symw prop nm width ports conns asgs procs W O P D N Si B Sb Wd. pose proof (c141_cuts_known vz symw true prop ports conns asgs W O P eq_refl) as W'.
  destruct (c132_build_succeeds vz true (cuts_of prop symw conns) nm width ports conns asgs procs W' D N B Wd Si Sb) as (s & nl & F).
  exists s, nl. split; [exact F|]. split; [exact (c133_annotations_right vz true _ nm width ports conns asgs procs W' D N B Wd s nl F)|].
  exact (c129_cone_connected vz true _ nm width ports conns asgs procs W' D N B Wd).
Qed.
Print Assumptions c143_blocks.
(** The design of [sq_apart] has no connections, and so no cuts. *)
Example sq_source : exists s nl, pflow false true (cuts_of true n_symw ([] : list (fconn bool))) unary sq_ports (fun _ => 1%Z) [] [] sq_procs = Some (s, nl).
Proof.
  destruct sq_apart as (O & N & B). destruct sq_small as [Si Sb].
  destruct (c143_blocks false n_symw true unary (fun _ => 1%Z) sq_ports [] [] sq_procs sq_wf) as (s & nl & F & _); auto; [intros [|? ?]; discriminate|intros c []|intros _; lia|eauto].
Qed.

(** The tree of [n_tops]. *)
Example n_source : exists s nl, flow false true (hints_of (recordCuts n_symw (fun _ => None) [seen n_outer; seen n_inner])) unary n_ports [n_outer; n_inner] [] = Some (s, nl) /\ one_reported nl.
Proof.
  assert (C : forall c, In c [n_outer; n_inner] -> c = n_outer \/ c = n_inner) by (intros c [<-|[<-|[]]]; auto).
  assert (D := n_order). destruct (traverse [] true 0 n_tops) as [evs|] eqn:E; [|destruct D].
  destruct (c143_tree false n_owner [] 0 n_tops evs n_symw unary n_ports [n_outer; n_inner] [] E n_scoped) as (s & nl & F & R & _).
  - repeat constructor; cbn; intuition discriminate.
  - cbn. intuition discriminate.
  - exact D.
  - apply n_wf, C.
  - apply n_widths, C.
  - unfold one_driver. cbn. repeat constructor; cbn; intuition congruence.
  - intros a s i p [].
  - intros s i I. cbn in I. repeat (destruct I as [I|I]; [injection I as <- <-; unfold int32_max; cbn; lia|]). destruct I.
  - exact unary_inj.
  - rewrite <- D in F. exists s, nl. split; [exact F|exact R].
Qed.
(** Its nodes: both ports are in two parts. *)
Example n_source_nodes : match flow false true (hints_of (recordCuts n_symw (fun _ => None) [seen n_outer; seen n_inner])) unary n_ports [n_outer; n_inner] [] with
  | Some (s, _) => bnodes (fb s) = [(0, BPort 3 (zrange 0 1)); (1, BPort 3 (zrange 2 3)); (2, BPort 5 (zrange 0 1)); (3, BPort 5 (zrange 2 3))]
  | None => False end.
Proof. vm_compute. reflexivity. Qed.
(** The cuts of the witness of C100 are those that the code records: with bits not resolved
    and cuts propagated, the statement of C99 fails for a design of which only the source
    is given. *)
Example ct_recorded : forall s, cuts_of true (fun _ => 2%N) ct_conns s = ct_h s.
Proof.
  intros s. unfold cuts_of, ct_conns, ct_h, hints_of, cutsFor. destruct (Nat.eqb_spec s 14) as [->|N]; [vm_compute; reflexivity|].
  assert (K : recordCuts (fun _ => 2%N) (fun _ => None) (map seen ct_conns) s = None); [|unfold ct_conns in K; now rewrite K].
  unfold recordCuts. cbn. unfold record_one, addCuts. cbn. unfold upd. destruct (Nat.eqb_spec s 14); [contradiction|reflexivity].
Qed.
