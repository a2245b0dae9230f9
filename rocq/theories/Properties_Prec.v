(** C110, C111: the netlist of a design has no edge, and a fan-in cone no port, that the source
    does not account for. *)
From Verif Require Import Base M_Graph M_Range M_Netlist M_DFS M_Path M_Annot M_Interval M_Heap M_Drivers M_Pending M_DFA M_Builder M_Slice M_Port M_Flow
  S_Graph S_Reach S_Netlist S_Slice S_Port S_Flow S_Prec P_Flow5 P_Flow6 P_Flow8 P_Prec P_Prec2 P_Prec3 P_Prec4 P_Prec5 Properties_Flow.

(** Every node stands for a range of a port, a piece of an assignment or a constant, and
    every edge goes from a piece that writes a bit to a piece that reads it. *)
Theorem c110_edges_feed : forall {V} (vz : V) rb h nm ports conns asgs,
  wf_design vz rb h ports conns asgs -> one_driver ports conns asgs -> no_port_names ports asgs ->
  forall s nl, flow vz rb h nm ports conns asgs = Some (s, nl) ->
  exists role, stands_for vz rb ports conns asgs (bnodes (fb s)) nl role.
Proof. intros V vz rb h nm ports conns asgs W O N s nl. exact (netlist_sound vz rb h nm ports conns asgs W O N s nl). Qed.
Print Assumptions c110_edges_feed.

(** What is in the fan-in cone of a port is connected to it. *)
Definition cones_connected {V} (vz : V) rb h nm ports conns asgs : Prop :=
  forall s nl n cone, flow vz rb h nm ports conns asgs = Some (s, nl) -> getCombFanIn nl n = Some cone ->
  forall p lo hi q a c m, In p ports -> In q ports -> In (n, BPort (fp_id p) (zrange lo hi)) (bnodes (fb s)) -> In m cone ->
    In (m, BPort (fp_id q) (zrange a c)) (bnodes (fb s)) -> Connected vz rb ports conns asgs (XPort q a c) (XPort p lo hi).
Theorem c110_cone_connected : forall {V} (vz : V) rb h nm ports conns asgs,
  wf_design vz rb h ports conns asgs -> one_driver ports conns asgs -> no_port_names ports asgs ->
  cones_connected vz rb h nm ports conns asgs.
Proof. intros V vz rb h nm ports conns asgs W O N s nl n cone. exact (cone_connected vz rb h nm ports conns asgs W O N s nl n cone). Qed.
Print Assumptions c110_cone_connected.

(** * The design with an instance *)
Example ex_one_driver : one_driver ex_ports ex_conns ex_asgs /\ no_port_names ex_ports ex_asgs.
Proof.
  split.
  - unfold one_driver. cbn. repeat constructor; cbn; intuition congruence.
  - intros a s i p I J Ip. cbn in I. each I; cbn in J; cbn in Ip; each Ip; cbn; intros ->; repeat (destruct J as [J|J]; [discriminate|]); destruct J.
Qed.
(** Input a is connected to output y. *)
Example ex_connected : Connected false true ex_ports ex_conns ex_asgs (XPort (FPort 0 10 [(0, 3, true)]) 0 3) (XPort (FPort 1 11 [(0, 1, false)]) 0 1).
Proof.
  assert (B : match flow false true ex_h (fun _ => []) ex_ports ex_conns ex_asgs with
    | Some (s, nl) => getCombFanIn nl 1 = Some [1; 8; 3; 6; 2; 0] /\ nth_error (bnodes (fb s)) 0 = Some (0, BPort 0 (zrange 0 3)) /\
        nth_error (bnodes (fb s)) 1 = Some (1, BPort 1 (zrange 0 1))
    | None => False end).
  { vm_compute. repeat split. }
  destruct (flow false true ex_h (fun _ => []) ex_ports ex_conns ex_asgs) as [[s nl]|] eqn:E; [|destruct B]. destruct B as (C & N0 & N1).
  apply (c110_cone_connected false true ex_h (fun _ => []) ex_ports ex_conns ex_asgs ex_wf (proj1 ex_one_driver) (proj2 ex_one_driver) s nl 1 _ E C) with (m := 0).
  - cbn. auto.
  - cbn. auto.
  - exact (nth_error_In _ _ N1).
  - cbn. auto 10.
  - exact (nth_error_In _ _ N0).
Qed.

(** * A net driven twice *)
(** module top(input [7:0] a, input b, input [2:0] c, output y);
      wire [7:0] w; assign w = a; assign w[3] = b; assign w[2:0] = c; assign y = w[7]; endmodule
    Splitting the interval of [w] at bit 3 leaves the same list of drivers on both sides;
    what is added for [w[2:0]] shows up at [w[7:4]]. *)
Definition md_ports := [FPort 0 10 [(0, 7, true)]; FPort 1 11 [(0, 0, true)]; FPort 2 12 [(0, 2, true)]; FPort 3 13 [(0, 0, false)]].
Definition md_asgs : list (fasg bool) :=
  [FAsg (bits_of 14 0 7) (bits_of 10 0 7); FAsg (bits_of 14 3 3) (bits_of 11 0 0); FAsg (bits_of 14 0 2) (bits_of 12 0 2);
   FAsg (bits_of 13 0 0) (bits_of 14 7 7)].
Lemma md_wf : wf_design false true (fun _ => None) md_ports [] md_asgs.
Proof.
  split.
  - intros s l. discriminate.
  - cbn. repeat constructor; cbn; lia.
  - cbn. repeat constructor; cbn; lia.
  - intros p I. cbn in I. each I.
    all: (split; [intros lo hi x [[= <- <- <-]|[]]; lia|]; intros l lo hi x l' lo' hi' x' l'' E; cbn in E; destruct l as [|? l]; [destruct l'; discriminate|destruct l; discriminate]).
  - intros a I. cbn in I. each I.
    all: (split; [exact I|]; split; [cbn; repeat split; try lia; discriminate|]; split; [cbn; repeat constructor; cbn; intuition congruence|]; split; [|discriminate]).
    all: intros q p Iq Ip R; cbn in Iq; each Iq; cbn in Ip; each Ip; try discriminate R; pick.
  - intros a I. cbn in I. each I.
    all: (split; [split; [cbn; repeat split; lia|split]|split; [|split; [reflexivity|]]]).
    all: try (intros s i p J K; cbn in J, K; each K; cbn; intros ->; repeat (destruct J as [J|J]; [discriminate|]); destruct J).
    all: try (intros _; cbn; repeat split; try lia; try discriminate).
    all: try solve [intros k x J; repeat (destruct k as [|k]; [cbn in J; destruct J as [J|[]]; discriminate|]); cbn in J; destruct k; destruct J].
    all: intros s i J K; cbn in J, K; repeat (destruct J as [J|J]; [inversion J; subst; repeat (destruct K as [K|K]; [discriminate K|]); destruct K|]); destruct J.
  - intros c [].
  - intros c [].
  - intros c [].
Qed.
Lemma md_names : no_port_names md_ports md_asgs.
Proof. intros a s i p I J Ip. cbn in I. each I; cbn in J; cbn in Ip; each Ip; cbn; intros ->; repeat (destruct J as [J|J]; [discriminate|]); destruct J. Qed.

(** Only the third assignment reads [c], and nothing reads [w[2:0]]. *)
Definition md_c (x : item bool) : Prop :=
  (exists lo hi, x = XPort (FPort 2 12 [(0, 2, true)]) lo hi) \/ exists lo hi, x = XAsg (FAsg (bits_of 14 0 2) (bits_of 12 0 2)) lo hi.
Lemma md_step x y : md_c x -> Feeds false true [] x y -> valid_item false true md_ports md_asgs y -> md_c y.
Proof.
  intros Px [(s & i & Wr & Rd)|[-> K]] Va.
  2: { destruct Px as [(? & ? & [=])|(? & ? & [=])]. }
  assert (Q : s = 12 \/ (s = 14 /\ i <= 2)).
  { destruct Px as [(lo & hi & ->)|(lo & hi & ->)]; cbn [item_writes] in Wr.
    - destruct Wr as [(E & _)|(c & k & [] & _)]. now left.
    - destruct Wr as (k & _ & E). right. repeat (destruct k as [|k]; [cbn in E; injection E as <- <-; split; [reflexivity|lia]|]). destruct k; discriminate E. }
  destruct y as [p lo hi|a lo hi|]; cbn [item_reads valid_item] in Rd, Va.
  - exfalso. destruct Rd as [(E & _ & a & c & J & _)|(c & k & [] & _)]. destruct Va as (Ip & _). cbn in Ip. each Ip; cbn in E, J; destruct J as [J|[]]; try discriminate J; lia.
  - destruct Va as (Ia & _). destruct Rd as (k & _ & at_ & J & R). cbn in Ia. each Ia; cbn [fa_rhs] in J.
    all: repeat (destruct k as [|k]; [cbn in J; destruct J as [<-|[]]; cbn in R; destruct R as [R|[]]; injection R as <- <-; try lia; right; eauto|]); cbn in J; destruct k; destruct J.
  - destruct Rd.
Qed.
Theorem c111_two_drivers_refuted :
  wf_design false true (fun _ => None) md_ports [] md_asgs /\ no_port_names md_ports md_asgs /\
  ~ cones_connected false true (fun _ => None) (fun _ => []) md_ports [] md_asgs.
Proof.
  split; [exact md_wf|]. split; [exact md_names|]. intros H.
  assert (B : match flow false true (fun _ => None) (fun _ => []) md_ports [] md_asgs with
    | Some (s, nl) => getCombFanIn nl 3 = Some [3; 7; 4; 0; 6; 2] /\
        bnodes (fb s) = [(0, BPort 0 (zrange 0 7)); (1, BPort 1 (zrange 0 0)); (2, BPort 2 (zrange 0 2)); (3, BPort 3 (zrange 0 0))]
    | None => False end).
  { vm_compute. repeat split. }
  destruct (flow false true (fun _ => None) (fun _ => []) md_ports [] md_asgs) as [[s nl]|] eqn:E; [|destruct B]. destruct B as (C & N).
  assert (K : Connected false true md_ports [] md_asgs (XPort (FPort 2 12 [(0, 2, true)]) 0 2) (XPort (FPort 3 13 [(0, 0, false)]) 0 0)).
  { apply (H s nl 3 _ E C) with (m := 2); rewrite ?N; cbn; auto 10. }
  assert (Inv : forall x z, Connected false true md_ports [] md_asgs x z -> md_c x -> md_c z).
  { induction 1 as [x|x y z F Va Cn IH]; intros Px; [exact Px|]. apply IH. exact (md_step x y Px F Va). }
  destruct (Inv _ _ K) as [(? & ? & Q)|(? & ? & Q)]; [left; eauto|discriminate Q|discriminate Q].
Qed.
Print Assumptions c111_two_drivers_refuted.
