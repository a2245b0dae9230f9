(** C112-C114: the netlist of a design has exactly the edges that the source accounts for,
    building it succeeds, and what its edges are annotated with. *)
From Coq Require Import Ascii.
From Verif Require Import Base M_Graph M_Range M_Netlist M_DFS M_Path M_Query M_Annot M_Interval M_Heap M_Drivers M_Pending M_DFA M_Builder M_Slice M_Port M_Flow
  S_Graph S_Reach S_Netlist S_Annot S_Pending S_Slice S_Port S_Flow S_Prec P_Flow5 P_Flow6 P_Flow8 P_Prec P_Prec2 P_Prec3 P_Prec4 P_Prec5 Properties_Flow Properties_Prec.

(** * C112 *)
(** An edge joins two nodes iff one writes a bit that the other reads; a constant is joined
    to a node iff it reads a constant; every bit of a port and every position of an
    assignment has a node. *)
Theorem c112_edges_exact : forall {V} (vz : V) rb h nm ports conns asgs,
  wf_design vz rb h ports conns asgs -> one_driver ports conns asgs -> no_port_names ports asgs ->
  forall s nl, flow vz rb h nm ports conns asgs = Some (s, nl) ->
  exists role, stands_for vz rb ports conns asgs (bnodes (fb s)) nl role /\ exactly vz rb ports conns asgs nl role.
Proof.
  intros V vz rb h nm ports conns asgs W O N s nl F. destruct (netlist_exact vz rb h nm ports conns asgs W O N s nl F) as (role & A & B & _). eauto.
Qed.
Print Assumptions c112_edges_exact.

(** The cone of a node is what leads to it through such pieces. *)
Theorem c112_cone_exact : forall {V} (vz : V) rb h nm ports conns asgs,
  wf_design vz rb h ports conns asgs -> one_driver ports conns asgs -> no_port_names ports asgs ->
  forall s nl, flow vz rb h nm ports conns asgs = Some (s, nl) ->
  exists role, stands_for vz rb ports conns asgs (bnodes (fb s)) nl role /\ exactly vz rb ports conns asgs nl role /\
  forall n cone, getCombFanIn nl n = Some cone -> forall m, role m <> XConst -> (In m cone <-> Reach (fed vz rb conns nl role) n m).
Proof. intros V vz rb h nm ports conns asgs W O N s nl. exact (cone_exact vz rb h nm ports conns asgs W O N s nl). Qed.
Print Assumptions c112_cone_exact.

(** * C113 *)
Theorem c113_build_succeeds : forall {V} (vz : V) rb h nm ports conns asgs,
  wf_design vz rb h ports conns asgs -> one_driver ports conns asgs -> no_port_names ports asgs -> small_indices ports conns asgs ->
  exists s nl, flow vz rb h nm ports conns asgs = Some (s, nl).
Proof. intros V vz rb h nm ports conns asgs. exact (flow_total vz rb h nm ports conns asgs). Qed.
Print Assumptions c113_build_succeeds.

(** * C114 *)
(** What an edge is annotated with is passed along it. *)
Theorem c114_annotations_right : forall {V} (vz : V) rb h nm ports conns asgs,
  wf_design vz rb h ports conns asgs -> one_driver ports conns asgs -> no_port_names ports asgs ->
  forall s nl, flow vz rb h nm ports conns asgs = Some (s, nl) ->
  exists role, stands_for vz rb ports conns asgs (bnodes (fb s)) nl role /\ exactly vz rb ports conns asgs nl role /\ annotates vz rb conns nm nl role.
Proof.
  intros V vz rb h nm ports conns asgs W O N s nl F. destruct (netlist_exact vz rb h nm ports conns asgs W O N s nl F) as (role & A & B & C & _). eauto.
Qed.
Print Assumptions c114_annotations_right.
(** Everything that is passed is annotated. *)
Definition annotations_complete {V} (vz : V) rb h nm ports conns asgs : Prop :=
  forall s nl role, flow vz rb h nm ports conns asgs = Some (s, nl) ->
  stands_for vz rb ports conns asgs (bnodes (fb s)) nl role -> exactly vz rb ports conns asgs nl role ->
  forall a b t j, hasNode (ng nl) a = true -> hasNode (ng nl) b = true -> passes vz rb conns (role a) (role b) t j -> annotated nl a b (nm t) (Z.of_nat j).
(** It is when the bits passed lie in the range of the source node, if that is a node of a
    port, and belong to variables of one name. *)
Theorem c114_annotations_exact_partial : forall {V} (vz : V) rb h nm ports conns asgs,
  wf_design vz rb h ports conns asgs -> one_driver ports conns asgs -> no_port_names ports asgs ->
  forall s nl, flow vz rb h nm ports conns asgs = Some (s, nl) ->
  exists role, stands_for vz rb ports conns asgs (bnodes (fb s)) nl role /\ exactly vz rb ports conns asgs nl role /\
  forall a b x, hasNode (ng nl) a = true -> hasNode (ng nl) b = true -> (forall t j, passes vz rb conns (role a) (role b) t j -> nm t = x) -> within_node vz rb conns role a b ->
  forall i, annotated nl a b x i <-> exists t j, i = Z.of_nat j /\ passes vz rb conns (role a) (role b) t j.
Proof.
  intros V vz rb h nm ports conns asgs W O N s nl F. destruct (netlist_exact vz rb h nm ports conns asgs W O N s nl F) as (role & A & B & C & D). exists role.
  split; [exact A|]. split; [exact B|]. intros a b x Ha Hb Nx Wn i. split.
  - intros Q. destruct (C a b x i Q) as (t & j & _ & E & P). eauto.
  - intros (t & j & -> & P). eapply D; eauto.
Qed.
Print Assumptions c114_annotations_exact_partial.

(** * Examples *)
(** The design with an instance of C110: it builds, and the cone of y[0] is what leads to it. *)
Example ex_small : small_indices ex_ports ex_conns ex_asgs.
Proof. intros s i I. cbn in I. repeat (destruct I as [I|I]; [injection I as <- <-; unfold int32_max; cbn; lia|]). destruct I. Qed.
Example ex_builds : exists s nl, flow false true ex_h (fun _ => []) ex_ports ex_conns ex_asgs = Some (s, nl).
Proof. exact (c113_build_succeeds false true ex_h (fun _ => []) ex_ports ex_conns ex_asgs ex_wf (proj1 ex_one_driver) (proj2 ex_one_driver) ex_small). Qed.
(** Input a reaches the first half of the instance output through the piece of the assignment
    that reads it, and nothing else. *)
Example ex_edges : match flow false true ex_h (fun _ => []) ex_ports ex_conns ex_asgs with
  | Some (s, nl) => map (fun n => map etgt (outs (nst (ng nl) n))) (seq 0 10) = [[2]; []; [6; 7]; [8]; [9]; []; [3]; [4]; [1]; [5]]
  | None => False end.
Proof. vm_compute. reflexivity. Qed.

(** module top(input a, output [1:0] y); assign y = {1'b1, a}; endmodule *)
Definition kt_ports := [FPort 0 10 [(0, 0, true)]; FPort 1 11 [(0, 1, false)]].
Definition kt_asgs : list (fasg bool) := [FAsg (bits_of 11 0 1) (EConcat 2 [EOther 1 (Some [true]) [] (fun _ => [true]); bits_of 10 0 0])].
Lemma kt_wf : wf_design false true (fun _ => None) kt_ports [] kt_asgs.
Proof.
  split.
  - intros s l. discriminate.
  - cbn. repeat constructor; cbn; lia.
  - cbn. repeat constructor; cbn; lia.
  - intros p I. cbn in I. each I.
    all: (split; [intros lo hi x [[= <- <- <-]|[]]; lia|]; intros l lo hi x l' lo' hi' x' l'' E; cbn in E; destruct l as [|? l]; [destruct l'; discriminate|destruct l; discriminate]).
  - intros a I. cbn in I. each I.
    all: (split; [exact I|]; split; [cbn; repeat split; try lia; discriminate|]; split; [cbn; repeat constructor; cbn; intuition congruence|]; split; [|discriminate]).
    all: intros q p Iq Ip R; cbn in Iq; each Iq; cbn in Ip; each Ip; try discriminate R; pick.
  - intros a I. cbn in I. each I. split; [|split; [|split; [reflexivity|]]].
    + split; [cbn; repeat split; lia|]. split.
      * intros s i p J K; cbn in J, K; each K; cbn; intros ->; repeat (destruct J as [J|J]; [discriminate|]); destruct J.
      * intros _. cbn. repeat split; try lia; try discriminate. intros c v [= <-]. reflexivity.
    + intros k x J. repeat (destruct k as [|k]; [cbn in J; destruct J as [J|[]]; discriminate|]). cbn in J. destruct k; destruct J.
    + intros s i J K; cbn in J, K; repeat (destruct J as [J|J]; [inversion J; subst; repeat (destruct K as [K|K]; [discriminate K|]); destruct K|]); destruct J.
  - intros c [].
  - intros c [].
  - intros c [].
Qed.
Lemma kt_one : one_driver kt_ports [] kt_asgs /\ no_port_names kt_ports kt_asgs.
Proof.
  split.
  - unfold one_driver. cbn. repeat constructor; cbn; intuition congruence.
  - intros a s i p I J Ip. cbn in I. each I; cbn in J; cbn in Ip; each Ip; cbn; intros ->; repeat (destruct J as [J|J]; [discriminate|]); destruct J.
Qed.
(** Some node of the assignment has an edge from a constant, namely that of position 1. *)
Example kt_constant : exists s nl role a b lo hi, flow false true (fun _ => None) (fun _ => []) kt_ports [] kt_asgs = Some (s, nl) /\
  stands_for false true kt_ports [] kt_asgs (bnodes (fb s)) nl role /\ role a = XConst /\ role b = XAsg (nth 0 kt_asgs (FAsg (bits_of 0 0 0) (bits_of 0 0 0))) lo hi /\ lo <= 1 < hi /\ Conn nl a b.
Proof.
  destruct (c113_build_succeeds false true (fun _ => None) (fun _ => []) kt_ports [] kt_asgs kt_wf (proj1 kt_one) (proj2 kt_one)) as (s & nl & E).
  { intros t i I. cbn in I. repeat (destruct I as [I|I]; [injection I as <- <-; unfold int32_max; cbn; lia|]). destruct I. }
  destruct (c112_edges_exact false true (fun _ => None) (fun _ => []) kt_ports [] kt_asgs kt_wf (proj1 kt_one) (proj2 kt_one) s nl E) as (role & St & Ex).
  destruct (ex_asg _ _ _ _ _ _ _ Ex (nth 0 kt_asgs (FAsg (bits_of 0 0 0) (bits_of 0 0 0))) 1 (or_introl eq_refl)) as (b & lo & hi & Hb & Rb & L); [cbn; lia|].
  destruct (proj1 (ex_const _ _ _ _ _ _ _ Ex b Hb)) as (a & Ra & C).
  { rewrite Rb. exists 1. split; [exact L|]. split; [reflexivity|]. exists true. cbn. now left. }
  exists s, nl, role, a, b, lo, hi. auto 10.
Qed.

(** * Annotations lost *)
(** module sub(input [3:0] i, output [3:0] o); assign o = i; endmodule
    module top(input [3:0] a, output [3:0] y); wire [5:0] w; sub u(.i(a), .o(w[5:2])); assign y = w[5:2]; endmodule
    The edge from port o to the assignment of y is annotated with w[3:2], the part of w[5:2]
    that overlaps the bounds [3:0] of o. *)
Definition an_nm (s : nat) : str := repeat "a"%char s.
Definition an_ports := [FPort 0 10 [(0, 3, true)]; FPort 1 11 [(0, 3, false)]; FPort 2 12 [(0, 3, true)]; FPort 3 13 [(0, 3, false)]].
Definition an_conns : list (fconn bool) := [FConn 2 12 4 false (bits_of 10 0 3); FConn 3 13 4 true (bits_of 14 2 5)].
Definition an_asgs : list (fasg bool) := [FAsg (bits_of 13 0 3) (bits_of 12 0 3); FAsg (bits_of 11 0 3) (bits_of 14 2 5)].
Lemma an_wf : wf_design false true (fun _ => None) an_ports an_conns an_asgs.
Proof.
  assert (Rd : forall e : expr bool, e = bits_of 14 2 5 \/ e = bits_of 12 0 3 \/ e = bits_of 10 0 3 ->
    readable false true an_ports e /\ forall k x, In (AOpq x) (nth k (bits false e) []) -> flat x).
  { intros e [ -> |[ -> | -> ]].
    all: (split; [split; [cbn; repeat split; lia|split]|]).
    all: try (intros s i p I J; cbn in I, J; each J; cbn; intros ->; repeat (destruct I as [I|I]; [discriminate|]); destruct I).
    all: try (intros _; cbn; repeat split; try lia; try discriminate).
    all: intros k x I; repeat (destruct k as [|k]; [cbn in I; destruct I as [I|[]]; discriminate|]); cbn in I; destruct k; destruct I. }
  split.
  - intros s l. discriminate.
  - cbn. repeat constructor; cbn; lia.
  - cbn. repeat constructor; cbn; lia.
  - intros p I. cbn in I. each I.
    all: (split; [intros lo hi x [[= <- <- <-]|[]]; lia|]; intros l lo hi x l' lo' hi' x' l'' E; cbn in E; destruct l as [|? l]; [destruct l'; discriminate|destruct l; discriminate]).
  - intros a I. cbn in I. each I.
    all: (split; [exact I|]; split; [cbn; repeat split; try lia; discriminate|]; split; [cbn; repeat constructor; cbn; intuition congruence|]; split; [|discriminate]).
    all: intros q p Iq Ip R; cbn in Iq; each Iq; cbn in Ip; each Ip; try discriminate R; pick.
  - intros a I. cbn in I. each I.
    all: match goal with |- readable _ _ _ (fa_rhs ?a) /\ _ => destruct (Rd (fa_rhs a)) as [R1 R2]; [cbn; tauto|split; [exact R1|split; [exact R2|]]] end.
    all: split; [reflexivity|]; intros s i J K; cbn in J, K; repeat (destruct J as [J|J]; [inversion J; subst; repeat (destruct K as [K|K]; [discriminate K|]); destruct K|]); destruct J.
  - intros c I. cbn in I. each I; (split; [cbn; lia|]; split; [reflexivity|]).
    + exists (FPort 2 12 [(0, 3, true)]). split; [cbn; tauto|]. split; [reflexivity|]. split; [reflexivity|]. intros lo hi x [[= <- <- <-]|[]]. cbn. lia.
    + exists (FPort 3 13 [(0, 3, false)]). split; [cbn; tauto|]. split; [reflexivity|]. split; [reflexivity|]. intros lo hi x [[= <- <- <-]|[]]. cbn. lia.
  - intros c I O. cbn in I. each I; try discriminate O. apply Rd. cbn. tauto.
  - intros c I O. cbn in I. each I; try discriminate O. split; [cbn; tauto|]. split; [cbn; repeat split; try lia; discriminate|]. split.
    + intros q p Iq Ip R. cbn in Iq. each Iq; cbn in Ip; each Ip; discriminate R.
    + intros k s i l E _ Eh _. discriminate Eh.
Qed.
Lemma an_one : one_driver an_ports an_conns an_asgs /\ no_port_names an_ports an_asgs.
Proof.
  split.
  - unfold one_driver. cbn. repeat constructor; cbn; intuition congruence.
  - intros a s i p I J Ip. cbn in I. each I; cbn in J; cbn in Ip; each Ip; cbn; intros ->; repeat (destruct J as [J|J]; [discriminate|]); destruct J.
Qed.
(** No edge of the netlist is annotated with w[5]: the query for its drivers is empty. *)
Example an_no_driver : match flow false true (fun _ => None) an_nm an_ports an_conns an_asgs with
  | Some (s, nl) => getBitDrivers (fun n => n) nl (an_nm 14) (Range 5 5) = [] /\ getBitDrivers (fun n => n) nl (an_nm 14) (Range 3 3) = [(Range 3 3, 3)]
  | None => False end.
Proof. vm_compute. split; reflexivity. Qed.
Theorem c114_annotations_complete_refuted :
  wf_design false true (fun _ => None) an_ports an_conns an_asgs /\ one_driver an_ports an_conns an_asgs /\ no_port_names an_ports an_asgs /\
  ~ annotations_complete false true (fun _ => None) an_nm an_ports an_conns an_asgs.
Proof.
  split; [exact an_wf|]. split; [apply an_one|]. split; [apply an_one|]. intros H.
  assert (B : match flow false true (fun _ => None) an_nm an_ports an_conns an_asgs with
    | Some (s, nl) => map (fun e => abounds (eatt nl (eid e))) (outs (nst (ng nl) 3)) = [Range 2 3] /\ nth_error (bnodes (fb s)) 3 = Some (3, BPort 3 (zrange 0 3))
    | None => False end).
  { vm_compute. split; reflexivity. }
  destruct (flow false true (fun _ => None) an_nm an_ports an_conns an_asgs) as [[s nl]|] eqn:E; [|destruct B]. destruct B as (Bo & Bn).
  destruct (c112_edges_exact false true (fun _ => None) an_nm an_ports an_conns an_asgs an_wf (proj1 an_one) (proj2 an_one) s nl E) as (role & St & Ex).
  set (o := FPort 3 13 [(0, 3, false)]). set (ya := FAsg (bits_of 11 0 3) (bits_of 14 2 5)).
  assert (Io : In o an_ports) by (cbn; auto). pose proof (nth_error_In _ _ Bn) as I3. change 3 with (fp_id o) in I3 at 2.
  pose proof (st_has _ _ _ _ _ _ _ _ St 3 o 0 3 Io I3) as H3. destruct (st_node _ _ _ _ _ _ _ _ St 3 H3) as (_ & _ & _ & K). pose proof (proj2 (K o 0 3 Io) I3) as R3.
  destruct (ex_asg _ _ _ _ _ _ _ Ex ya 3 (or_intror (or_introl eq_refl))) as (n & lo & hi & Hn & Rn & L); [cbn; lia|].
  destruct (H s nl role E St Ex 3 n 14 5 H3 Hn) as (x & Ix & _ & Bx).
  - rewrite R3, Rn. split.
    + right. exists (FConn 3 13 4 true (bits_of 14 2 5)), 3. split; [cbn; auto|]. split; [reflexivity|]. split; [reflexivity|]. split; [intros _; lia|]. reflexivity.
    + exists 3. split; [intros _; exact L|]. exists (ABit (Some 14) 5). split; cbn; auto.
  - unfold pair_ann in Ix. apply in_map_iff in Ix. destruct Ix as (e & <- & Ie). apply filter_In in Ie. destruct Ie as [Ie _].
    apply (in_map (fun e => abounds (eatt nl (eid e)))) in Ie. rewrite Bo in Ie. destruct Ie as [Ie|[]]. rewrite <- Ie in Bx. unfold bit_in in Bx. cbn in Bx. lia.
Qed.
Print Assumptions c114_annotations_complete_refuted.
