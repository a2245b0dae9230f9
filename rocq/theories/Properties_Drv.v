(** C138: the driver query on the netlist of a design. *)
From Verif Require Import Base M_Graph M_Range M_Netlist M_DFS M_Path M_Query M_Annot M_Interval M_Heap M_Drivers M_Pending M_DFA M_Builder M_Slice M_Port M_Flow M_Proc
  S_Graph S_Reach S_Netlist S_Annot S_Pending S_Query S_Slice S_Port S_Flow S_Proc S_Prec S_Prec2 S_Total S_Drv P_Drv
  Properties_Flow Properties_Prec Properties_Exact Properties_Proc Properties_Seq Properties_Prec2 Properties_Total.

(** * C138 *)
(** Ports, connections and continuous assignments. *)
Theorem c138_drivers_exact : forall {V} (vz : V) rb h nm ports conns asgs,
  wf_design vz rb h ports conns asgs -> one_driver ports conns asgs -> no_port_names ports asgs -> (forall a b, nm a = nm b -> a = b) ->
  forall s nl, flow vz rb h nm ports conns asgs = Some (s, nl) ->
  exists role, (stands_for vz rb ports conns asgs (bnodes (fb s)) nl role /\ exactly vz rb ports conns asgs nl role) /\
    drivers_right vz rb conns nm nl role /\ drivers_found vz rb conns nm nl role.
Proof. intros V vz rb h nm ports conns asgs W O N I. exact (drivers_exact vz rb h nm ports conns asgs W O N I). Qed.
Print Assumptions c138_drivers_exact.
(** With procedural blocks. *)
Theorem c138_block_drivers : forall {V} (vz : V) rb h nm width ports conns asgs procs,
  wf_design vz rb h ports conns asgs -> one_driver ports conns asgs -> no_port_names ports asgs -> blocks_apart vz rb h ports conns asgs procs ->
  (forall s, 0 <= width s)%Z -> (forall a b, nm a = nm b -> a = b) -> forall s nl, pflow vz rb h nm ports width conns asgs procs = Some (s, nl) ->
  exists role, pieces vz rb width ports conns asgs procs (bnodes (fb s)) nl role /\ pdrivers_right rb conns nm nl role.
Proof. intros V vz rb h nm width ports conns asgs procs W O N B Wd I. exact (pdrivers vz rb h nm ports conns asgs W O N I width procs B Wd). Qed.
Print Assumptions c138_block_drivers.


(** * C139 *)
(** With bits resolved no bit is written by two nodes, and the query names at most one
    node for a bit. *)
Theorem c139_one_driver : forall {V} (vz : V) h nm ports conns asgs,
  wf_design vz true h ports conns asgs -> one_driver ports conns asgs -> no_port_names ports asgs -> (forall a b, nm a = nm b -> a = b) ->
  forall s nl, flow vz true h nm ports conns asgs = Some (s, nl) ->
  one_reported nl /\ exists role, stands_for vz true ports conns asgs (bnodes (fb s)) nl role /\ written_once true conns nl role.
Proof. intros V vz h nm ports conns asgs W O N I s nl. exact (driver_one vz true h nm ports conns asgs W O N I s nl eq_refl). Qed.
Print Assumptions c139_one_driver.

Lemma unary_inj a b : unary a = unary b -> a = b.
Proof. intros E. apply (f_equal (@length _)) in E. unfold unary in E. now rewrite !repeat_length in E. Qed.
(** The design with an instance of C110: bits 3:1 of 12, the inner side of the input of the
    instance, come from its port node, in two parts as two pieces of an assignment read it; 13,
    the inner side of the output, comes from these pieces. *)
Example ex_drivers : match flow false true ex_h unary ex_ports ex_conns ex_asgs with
  | Some (s, nl) => getBitDrivers (fun n => n) nl (unary 12) (Range 3 1) = [(Range 1 1, 2); (Range 2 3, 2)] /\
      getBitDrivers (fun n => n) nl (unary 13) (Range 3 0) = [(Range 0 1, 6); (Range 2 3, 7)]
  | None => False end.
Proof. vm_compute. repeat split. Qed.
Example ex_explained : exists s nl role, flow false true ex_h unary ex_ports ex_conns ex_asgs = Some (s, nl) /\
  drivers_right false true ex_conns unary nl role /\ drivers_found false true ex_conns unary nl role.
Proof.
  destruct (c113_build_succeeds false true ex_h unary ex_ports ex_conns ex_asgs ex_wf (proj1 ex_one_driver) (proj2 ex_one_driver) ex_small) as (s & nl & E).
  destruct (c138_drivers_exact false true ex_h unary ex_ports ex_conns ex_asgs ex_wf (proj1 ex_one_driver) (proj2 ex_one_driver) unary_inj s nl E) as (role & _ & R & F). eauto 6.
Qed.
(** The design of [sq_apart]: the variable 14 comes from its register, node 10, and from the
    assignment in the block, node 7.  Nothing reads the input 11, so nothing is reported for it. *)
Example sq_drivers : match pflow false true no_h unary sq_ports (fun _ => 1%Z) [] [] sq_procs with
  | Some (s, nl) => getBitDrivers (fun n => n) nl (unary 14) (Range 1 0) = [(Range 0 1, 7); (Range 0 1, 10)] /\ getBitDrivers (fun n => n) nl (unary 11) (Range 1 0) = []
  | None => False end.
Proof. vm_compute. repeat split. Qed.
(** The design with an instance of C110 again: whatever range of 12 is asked for, its bits
    come from node 2. *)
Example ex_one_reported : exists s nl, flow false true ex_h unary ex_ports ex_conns ex_asgs = Some (s, nl) /\ one_reported nl.
Proof.
  destruct (c113_build_succeeds false true ex_h unary ex_ports ex_conns ex_asgs ex_wf (proj1 ex_one_driver) (proj2 ex_one_driver) ex_small) as (s & nl & E).
  destruct (c139_one_driver false ex_h unary ex_ports ex_conns ex_asgs ex_wf (proj1 ex_one_driver) (proj2 ex_one_driver) unary_inj s nl E) as (O & _). eauto.
Qed.

(** * C140 *)
(** The same without resolving bits. *)
Definition one_driver_unresolved {V} (vz : V) h nm ports conns asgs : Prop :=
  forall s nl, flow vz false h nm ports conns asgs = Some (s, nl) -> one_reported nl.
(** module child(output [1:0] o); assign o[0] = ..; assign o[1] = ..; endmodule
    module top(output [1:0] y); logic [3:0] w; child u(.o(w[3:2])); assign y = w[3:2]; endmodule
    The port o has a node for each bit, and each of them becomes a driver of both bits of w
    (handlePortConnectionLegacy, PortConnectionHandler.cpp 252-298). *)
Definition ud_ports := [FPort 0 10 [(0, 1, false)]; FPort 1 12 [(0, 0, false); (1, 1, false)]].
Definition ud_conns : list (fconn bool) := [FConn 1 12 2 true (bits_of 14 2 3)].
Definition ud_asgs : list (fasg bool) := [FAsg (bits_of 10 0 1) (bits_of 14 2 3)].
Lemma ud_wf : wf_design false false (fun _ => None) ud_ports ud_conns ud_asgs.
Proof.
  split.
  - intros s l. discriminate.
  - cbn. repeat constructor; cbn; lia.
  - cbn. repeat constructor; cbn; lia.
  - intros p [<-|[<-|[]]]; cbn [fp_drivers].
    + split; [intros lo hi x [[= <- <- <-]|[]]; lia|]. intros l lo hi x l' lo' hi' x' l'' E. destruct l as [|? l]; [destruct l'; discriminate|destruct l; discriminate].
    + split; [intros lo hi x [[= <- <- <-]|[[= <- <- <-]|[]]]; lia|]. intros l lo hi x l' lo' hi' x' l'' E.
      destruct l as [|? l]; [|destruct l as [|? l]; [destruct l'; discriminate|destruct l; discriminate]].
      destruct l' as [|? l']; [cbn in E; injection E; intros; subst; lia|destruct l'; discriminate].
  - intros a [<-|[]]. split; [exact I|]. split; [cbn; repeat split; try lia; discriminate|]. split; [cbn; repeat constructor; cbn; intuition congruence|]. split; [|intros _ q s l c _ _; discriminate].
    intros q p Iq Ip R; cbn in Iq; each Iq; cbn in Ip; each Ip; try discriminate R; pick.
  - intros a [<-|[]]. split; [|split; [|split; [reflexivity|]]].
    + split; [cbn; repeat split; lia|]. split; [|discriminate].
      intros s i p J K; cbn in J, K; each K; cbn; intros ->; repeat (destruct J as [J|J]; [discriminate|]); destruct J.
    + exact I.
    + intros s i J K; cbn in J, K; repeat (destruct J as [J|J]; [inversion J; subst; repeat (destruct K as [K|K]; [discriminate K|]); destruct K|]); destruct J.
  - intros c [<-|[]]. split; [cbn; lia|]. split; [reflexivity|]. exists (FPort 1 12 [(0, 0, false); (1, 1, false)]). split; [cbn; tauto|]. split; [reflexivity|]. split; [reflexivity|].
    intros lo hi x [[= <- <- <-]|[[= <- <- <-]|[]]]; cbn; lia.
  - intros c [<-|[]]. discriminate.
  - intros c [<-|[]] _. split; [exact I|]. split; [cbn; repeat split; try lia; discriminate|]. split; [|intros q s l c _ _; discriminate].
    intros q p Iq Ip R; cbn in Iq; each Iq; cbn in Ip; each Ip; discriminate R.
Qed.
Theorem c140_unresolved_refuted :
  wf_design false false (fun _ => None) ud_ports ud_conns ud_asgs /\ one_driver ud_ports ud_conns ud_asgs /\ no_port_names ud_ports ud_asgs /\
  ~ one_driver_unresolved false (fun _ => None) unary ud_ports ud_conns ud_asgs.
Proof.
  split; [exact ud_wf|]. split; [unfold one_driver; cbn; repeat constructor; cbn; intuition congruence|]. split.
  - intros a s i p [<-|[]] J [<-|[<-|[]]]; cbn in *; intuition congruence.
  - intros H. assert (B : match flow false false (fun _ => None) unary ud_ports ud_conns ud_asgs with
      | Some (s, nl) => getBitDrivers (fun n => n) nl (unary 14) (Range 3 0) = [(Range 2 3, 1); (Range 2 3, 2)] | None => False end) by (vm_compute; reflexivity).
    unfold one_driver_unresolved in H. destruct (flow false false (fun _ => None) unary ud_ports ud_conns ud_asgs) as [[s nl]|]; [|destruct B].
    specialize (H s nl eq_refl (fun n => n) (unary 14) (Range 3 0) (Range 3 0) 1 2 2%Z (fun a b E => E)).
    assert (Q : 1 = 2); [|discriminate Q]. apply H; eexists; (split; [rewrite B|]).
    + now left.
    + unfold InRange. cbn. lia.
    + right. now left.
    + unfold InRange. cbn. lia.
Qed.
Print Assumptions c140_unresolved_refuted.
