(** C132-C134: building the netlist of a design with procedural blocks succeeds, and what its
    edges are annotated with. *)
From Verif Require Import Base M_Graph M_Range M_Netlist M_DFS M_Path M_Annot M_Interval M_Heap M_Drivers M_Pending M_DFA M_Builder M_Slice M_Port M_Flow M_Proc M_Query
  S_Graph S_Reach S_Netlist S_Annot S_Pending S_DFA S_Slice S_Port S_Flow S_Proc S_Prec S_Prec2 S_Total P_Prec8
  Properties_Flow Properties_Prec Properties_Proc Properties_Seq Properties_Prec2.

(** * C132 *)
(** No assertion fails, no list handle is stale and no node is missing, neither in the
    analysis of the blocks nor in merging their drivers nor in resolving what is read. *)
Theorem c132_build_succeeds : forall {V} (vz : V) rb h nm width ports conns asgs procs,
  wf_design vz rb h ports conns asgs -> one_driver ports conns asgs -> no_port_names ports asgs -> blocks_apart vz rb h ports conns asgs procs ->
  (forall s, 0 <= width s)%Z -> small_indices ports conns asgs -> small_blocks procs ->
  exists s nl, pflow vz rb h nm ports width conns asgs procs = Some (s, nl).
Proof. intros V vz rb h nm width ports conns asgs procs W O N B Wd. exact (pflow_total vz rb h nm width ports conns asgs procs W O N B Wd). Qed.
Print Assumptions c132_build_succeeds.

(** * C133 *)
(** What an edge is annotated with is passed along it: written at one end and read at the
    other, or read by the block that the edge stays in, or held by the register that it leads
    to. *)
Theorem c133_annotations_right : forall {V} (vz : V) rb h nm width ports conns asgs procs,
  wf_design vz rb h ports conns asgs -> one_driver ports conns asgs -> no_port_names ports asgs -> blocks_apart vz rb h ports conns asgs procs ->
  (forall s, 0 <= width s)%Z -> forall s nl, pflow vz rb h nm ports width conns asgs procs = Some (s, nl) ->
  exists role, pieces vz rb width ports conns asgs procs (bnodes (fb s)) nl role /\ pannotates vz rb width conns nm nl role.
Proof. intros V vz rb h nm width ports conns asgs procs W O N B Wd. exact (pieces_sound vz rb h nm width ports conns asgs procs W O N B Wd). Qed.
Print Assumptions c133_annotations_right.

(** The design of [sq_apart]. *)
Lemma sq_small : small_indices sq_ports ([] : list (fconn bool)) [] /\ small_blocks sq_procs.
Proof.
  split.
  - intros s i I. cbn in I. assert (i <= 1) by (repeat (destruct I as [[= <- <-]|I]; [lia|]); destruct I). assert (E : int32_max = 2147483647%Z) by reflexivity. rewrite E. lia.
  - intros x s i [<-|[<-|[]]] H; cbn in H; (assert (i <= 1) by (repeat match goal with H : _ \/ _ |- _ => destruct H as [H|H] end; try contradiction; injection H as <- <-; lia));
    assert (E : int32_max = 2147483647%Z) by reflexivity; rewrite E; lia.
Qed.
Definition unary (n : nat) : str := List.repeat (Ascii.ascii_of_nat 120) n.
Example sq_built : exists s nl role, pflow false true no_h unary sq_ports (fun _ => 1%Z) [] [] sq_procs = Some (s, nl) /\
  pieces false true (fun _ => 1%Z) sq_ports [] [] sq_procs (bnodes (fb s)) nl role /\ pannotates false true (fun _ => 1%Z) [] unary nl role.
Proof.
  destruct sq_apart as (O & N & B). destruct sq_small as [S1 S2]. assert (Wd : forall s : nat, (0 <= 1)%Z) by (intros; lia).
  destruct (c132_build_succeeds false true no_h unary (fun _ => 1%Z) sq_ports [] [] sq_procs sq_wf O N B Wd S1 S2) as (s & nl & E).
  destruct (c133_annotations_right false true no_h unary (fun _ => 1%Z) sq_ports [] [] sq_procs sq_wf O N B Wd s nl E) as (role & P & A). eauto 8.
Qed.

(** * C134 *)
(** Every bit that an edge is annotated with is assigned in the source by what the edge
    leaves. *)
Definition annotations_assigned {V} (vz : V) rb h nm width ports conns asgs procs : Prop :=
  forall s nl, pflow vz rb h nm ports width conns asgs procs = Some (s, nl) ->
  exists role, pieces vz rb width ports conns asgs procs (bnodes (fb s)) nl role /\
    forall a b x i, annotated nl a b x i -> exists t j, x = nm t /\ i = Z.of_nat j /\
      (piece_writes rb conns (role a) t j \/ exists y, role a = Block y /\ may (pr_body y) t j).
(** logic [1:0] t; always @* begin t[0] = a[0]; y = t; end
    Nothing assigns t[1], but the edge between the two assignments is annotated with t[1:0]:
    addDriversToNode gets the range that is read, not the part of it that the driver has
    (DataFlowAnalysis.cpp 99-104). *)
Notation un_procs := [FProc [] (PSeq (PAsg true (bits_of 14 0 0) (bits_of 10 0 0)) (PAsg true (bits_of 13 0 1) (bits_of 14 0 1)))].
Lemma un_apart : blocks_apart false true no_h sq_ports [] [] un_procs.
Proof.
  split.
  - repeat constructor; cbn; intuition discriminate.
  - intros x [<-|[]]. split; [cbn [pr_body]; bstmt_tac|aligned_tac|names_tac|clocks_tac].
  - intros x s i [<-|[]] M I; apart_tac M I.
  - intros x y s i [<-|[]] [<-|[]] M1 M2; reflexivity.
Qed.
Theorem c134_unassigned_refuted :
  wf_design false true no_h sq_ports [] [] /\ one_driver sq_ports ([] : list (fconn bool)) [] /\ no_port_names sq_ports ([] : list (fasg bool)) /\
  blocks_apart false true no_h sq_ports [] [] un_procs /\ ~ annotations_assigned false true no_h unary (fun _ => 1%Z) sq_ports [] [] un_procs.
Proof.
  destruct sq_apart as (O & N & _). split; [exact sq_wf|]. split; [exact O|]. split; [exact N|]. split; [exact un_apart|]. intros H.
  assert (B : match pflow false true no_h unary sq_ports (fun _ => 1%Z) [] [] un_procs with
    | Some (s, nl) => hasNode (ng nl) 5 = true /\ pair_ann nl 5 6 = [EAttr EKNone (Some (unary 14)) (Range 0 1) false]
    | None => False end) by (vm_compute; repeat split).
  unfold annotations_assigned in H. destruct (pflow false true no_h unary sq_ports (fun _ => 1%Z) [] [] un_procs) as [[s nl]|]; [|destruct B].
  destruct B as [B1 B2]. destruct (H s nl eq_refl) as (role & P & Q). pose proof (pi_valid _ _ _ _ _ _ _ _ _ _ P 5 B1) as V5.
  destruct (Q 5 6 (unary 14) 1%Z) as (t & j & Et & Ej & D).
  { unfold annotated. rewrite B2. eexists. split; [left; reflexivity|]. split; [reflexivity|]. unfold bit_in. vm_compute. split; discriminate. }
  assert (t = 14) by (apply (f_equal (@length _)) in Et; unfold unary in Et; rewrite !repeat_length in Et; now symmetry). assert (j = 1) by lia. subst t j.
  assert (M : forall y, In y un_procs -> ~ may (pr_body y) 14 1) by (intros y [<-|[]]; cbn; intuition congruence).
  destruct D as [D|(y & Ry & My)].
  - destruct (role 5) as [[p a c|a a0 c|]|y|y u lo hi]; cbn in D, V5.
    + destruct D as [(E & _)|(c' & k & [] & _)]. destruct V5 as (Ip & _). each Ip; discriminate E.
    + destruct V5 as ([] & _).
    + exact D.
    + exact (M y V5 (proj2 D)).
    + destruct D as [<- L]. destruct V5 as (Iy & _ & _ & My). exact (M y Iy (My 1 L)).
  - rewrite Ry in V5. exact (M y V5 My).
Qed.
Print Assumptions c134_unassigned_refuted.
(** Querying for the drivers of t[1] finds the assignment to t[0]. *)
Example un_driver : match pflow false true no_h unary sq_ports (fun _ => 1%Z) [] [] un_procs with
  | Some (s, nl) => getBitDrivers (fun n => n) nl (unary 14) (Range 1 1) = [(Range 1 1, 5)]
  | None => False end.
Proof. vm_compute. reflexivity. Qed.
