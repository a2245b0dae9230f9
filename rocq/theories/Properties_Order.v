(** C131: the order of the continuous assignments and the procedural blocks does not
    matter.  C117, C124 and C128 hold whatever the order in which they are handled. *)
From Coq Require Import Permutation.
From Verif Require Import Base M_Graph M_Range M_Netlist M_DFS M_Path M_Cycle M_Annot M_Interval M_Heap M_Drivers M_Pending M_DFA M_Builder M_Slice M_Port M_Flow M_Proc M_Order
  S_Graph S_Reach S_Netlist S_DFA S_Slice S_Port S_Flow S_Proc S_Seq S_Settle S_Order P_Slice2 P_Flow5 P_Flow6 P_Flow8 P_Proc3 P_Seq3 P_Settle P_Order
  Properties_Path Properties_Flow Properties_Proc Properties_Seq Properties_Sync Properties_Settle.

Definition wf_tasks {V} (vz : V) rb h ports conns l : Prop := wf_clocked vz rb h ports conns (asgs_of l) (procs_of l) (regs_of l).

(** A continuous assignment is handled as the block that assigns the same. *)
Theorem c131_assignment_is_block : forall {V} (vz : V) rb h nm ports width conns l,
  tflow vz rb h nm ports width conns l =
  tflow vz rb h nm ports width conns (map (fun t => match t with TAsg a => TProc (FProc [] (PAsg true (fa_lhs a) (fa_rhs a))) | t => t end) l).
Proof. intros. rewrite !tflow_blocks. f_equal. rewrite map_map. apply map_ext. intros [a|x]; reflexivity. Qed.
Print Assumptions c131_assignment_is_block.

(** Continuous assignments first and blocks after them is one of the orders. *)
Theorem c131_one_order : forall {V} (vz : V) rb h nm ports width conns asgs procs,
  tflow vz rb h nm ports width conns (map TAsg asgs ++ map TProc procs) = pflow vz rb h nm ports width conns asgs procs.
Proof.
  intros V vz rb h nm ports width conns asgs procs. unfold tflow, pflow, tflow_state, pflow_state, flow_state.
  destruct (make_all_ports h bempty ports) as [b1|]; [|reflexivity]. cbn [dbind]. destruct (connect_all vz rb nm ports b1 conns) as [b2|]; [|reflexivity]. cbn [dbind].
  assert (R : forall s, run_tasks vz rb h nm ports width s (map TAsg asgs ++ map TProc procs) = dbind (run_asgs vz rb h nm ports s asgs) (fun s1 => run_procs vz rb h nm ports width s1 procs)).
  { assert (P : forall s, run_tasks vz rb h nm ports width s (map TProc procs) = run_procs vz rb h nm ports width s procs).
    { induction procs as [|x r IH]; intros s; cbn; [reflexivity|]. destruct (run_proc _ _ _ _ _ _ s x); [|reflexivity]. cbn. apply IH. }
    induction asgs as [|a r IH]; intros s; cbn; [apply P|]. destruct (run_asg _ _ _ _ _ s a); [|reflexivity]. cbn. apply IH. }
  now rewrite R.
Qed.
Print Assumptions c131_one_order.

(** The analysis never fails, and the State nodes stand for the registers. *)
Theorem c131_built : forall {V} (vz : V) rb h nm ports width conns l, wf_tasks vz rb h ports conns l ->
  exists s, tflow_state vz rb h nm ports width conns l = DOk s /\
    forall t j, S_Seq.register (regs_of l) t j <-> exists n w, In (n, BState t w) (bnodes (fb s)) /\ bit w (Z.of_nat j).
Proof.
  intros V vz rb h nm ports width conns l (W & Cb & Wr).
  destruct (sstate_built vz (fun _ => true) (fun _ _ => true) rb h nm ports width conns [] (blocks l) (regs_of l) (blocks_wf _ _ _ _ _ _ W) (blocks_comb vz rb h nm ports conns l W Cb) (blocks_regs vz rb h ports conns l Wr) (map task_block l) (tasks_perm l)) as (b1 & ops & s & G0 & X & C & E & Pm & B).
  exists s. split; [rewrite tflow_state_blocks; exact E|]. intros t j. split.
  - intros R. destruct (sb_cover _ _ _ _ _ _ _ _ _ _ _ _ _ B t j R) as (n & a & c & I & L). exists n, (zrange a c). split; [exact I|].
    unfold zrange, bit. cbn. lia.
  - intros (n & w & I & Bw). destruct (sb_state _ _ _ _ _ _ _ _ _ _ _ _ _ B n t w I) as (_ & x & a & c & Ix & -> & Sn). exists x. split; [exact Ix|].
    pose proof (P_Seq2.sn_le _ _ _ _ _ _ _ _ _ _ _ _ _ _ Sn). apply (P_Seq2.sn_may _ _ _ _ _ _ _ _ _ _ _ _ _ _ Sn). unfold zrange, bit in Bw. cbn in Bw. lia.
Qed.
Print Assumptions c131_built.

(** The inputs in the cone of an output port and the registers that feed the cone
    determine the output. *)
Theorem c131_output : forall {V} (vz : V) istrue hits rb h nm ports width conns l, wf_tasks vz rb h ports conns l ->
  forall s nl q n lo hi cone,
  tflow vz rb h nm ports width conns l = Some (s, nl) -> In q ports -> In (n, BPort (fp_id q) (zrange lo hi)) (bnodes (fb s)) ->
  getCombFanIn nl n = Some cone -> (forall m, In m cone -> ~ Reach1 (CombBack nl) m m) -> reads_whole (regs_of l) s cone ->
  forall v1 v2, psettled vz istrue hits conns (asgs_of l) (procs_of l) v1 -> psettled vz istrue hits conns (asgs_of l) (procs_of l) v2 ->
  ragree_undriven ports conns (asgs_of l) (procs_of l) (regs_of l) v1 v2 ->
  inputs_agree ports conns s cone v1 v2 -> feeders_agree s nl cone v1 v2 ->
  forall i, lo <= i <= hi -> v1 (fp_sy q) i = v2 (fp_sy q) i.
Proof.
  intros V vz istrue hits rb h nm ports width conns l (W & Cb & Wr) s nl q n lo hi cone E Iq In_ C Ac Rw v1 v2 S1 S2 U A Fa i L.
  rewrite tflow_blocks in E. pose proof (settled_blocks vz istrue hits rb h ports conns l W v1 S1) as B1. pose proof (settled_blocks vz istrue hits rb h ports conns l W v2 S2) as B2. apply agree_blocks in U.
  pose proof (blocks_wf vz rb h ports conns l W) as W'. pose proof (blocks_comb vz rb h nm ports conns l W Cb) as Cb'. pose proof (blocks_regs vz rb h ports conns l Wr) as Wr'. pose proof (tasks_perm l) as Pm.
  destruct (seq_cone vz istrue hits rb h nm ports width conns [] (blocks l) (regs_of l) W' Cb' Wr' (map task_block l) Pm s nl n cone E C Ac v1 v2 B1 B2 U A) as [T _].
  - intros m t j Im R Rt. destruct (reg_edge vz istrue hits rb h nm ports width conns [] (blocks l) (regs_of l) W' Cb' Wr' (map task_block l) Pm s nl m t j E) as (n' & w & I' & B & Cn); auto; [|exact (Fa n' t w m j I' Im Cn B)].
    intros p Ip Pn. exact (Rw p m Ip Pn Im).
  - apply (T q n lo hi i); auto. destruct (fanIn_of nl n cone (pflow_wf _ _ _ _ _ _ _ _ _ _ _ E) C) as [Ic _]. exact Ic.
Qed.
Print Assumptions c131_output.
(** The same for the value that a register takes. *)
Theorem c131_register : forall {V} (vz : V) istrue hits rb h nm ports width conns l, wf_tasks vz rb h ports conns l ->
  forall s nl x n t w cone,
  tflow vz rb h nm ports width conns l = Some (s, nl) -> In x (regs_of l) -> In (n, BState t w) (bnodes (fb s)) ->
  getCombFanIn nl n = Some cone -> (forall m, In m cone -> ~ Reach1 (CombBack nl) m m) -> reads_whole (regs_of l) s cone ->
  forall v1 v2, psettled vz istrue hits conns (asgs_of l) (procs_of l) v1 -> psettled vz istrue hits conns (asgs_of l) (procs_of l) v2 ->
  ragree_undriven ports conns (asgs_of l) (procs_of l) (regs_of l) v1 v2 ->
  inputs_agree ports conns s cone v1 v2 -> feeders_agree s nl cone v1 v2 ->
  forall j, bit w (Z.of_nat j) -> may (pr_body x) t j -> v1 t j = v2 t j -> after_edge vz istrue hits x v1 t j = after_edge vz istrue hits x v2 t j.
Proof.
  intros V vz istrue hits rb h nm ports width conns l (W & Cb & Wr) s nl x n t w cone E Ix In_ C Ac Rw v1 v2 S1 S2 U A Fa j B M Ev.
  rewrite tflow_blocks in E. pose proof (settled_blocks vz istrue hits rb h ports conns l W v1 S1) as B1. pose proof (settled_blocks vz istrue hits rb h ports conns l W v2 S2) as B2. apply agree_blocks in U.
  pose proof (blocks_wf vz rb h ports conns l W) as W'. pose proof (blocks_comb vz rb h nm ports conns l W Cb) as Cb'. pose proof (blocks_regs vz rb h ports conns l Wr) as Wr'. pose proof (tasks_perm l) as Pm.
  destruct (seq_cone vz istrue hits rb h nm ports width conns [] (blocks l) (regs_of l) W' Cb' Wr' (map task_block l) Pm s nl n cone E C Ac v1 v2 B1 B2 U A) as [_ T].
  - intros m t' j' Im R Rt. destruct (reg_edge vz istrue hits rb h nm ports width conns [] (blocks l) (regs_of l) W' Cb' Wr' (map task_block l) Pm s nl m t' j' E) as (n' & w' & I' & B' & Cn); auto; [|exact (Fa n' t' w' m j' I' Im Cn B')].
    intros p Ip Pn. exact (Rw p m Ip Pn Im).
  - apply (T x n t w j); auto. destruct (fanIn_of nl n cone (pflow_wf _ _ _ _ _ _ _ _ _ _ _ E) C) as [Ic _]. exact Ic.
Qed.
Print Assumptions c131_register.

(** No combinational loop reported: the inputs and the registers determine every value. *)
Theorem c131_values_determined : forall {V} (vz : V) istrue hits rb h nm ports width conns l, wf_tasks vz rb h ports conns l ->
  forall s nl, tflow vz rb h nm ports width conns l = Some (s, nl) -> getAllLoops nl = Some [] ->
  forall v1 v2, psettled vz istrue hits conns (asgs_of l) (procs_of l) v1 -> psettled vz istrue hits conns (asgs_of l) (procs_of l) v2 ->
  same_givens ports conns (asgs_of l) (procs_of l) (regs_of l) v1 v2 ->
  forall t i, v1 t i = v2 t i.
Proof.
  intros V vz istrue hits rb h nm ports width conns l (W & Cb & Wr) s nl E NL v1 v2 S1 S2 [A R U].
  rewrite tflow_blocks in E. pose proof (settled_blocks vz istrue hits rb h ports conns l W v1 S1) as B1. pose proof (settled_blocks vz istrue hits rb h ports conns l W v2 S2) as B2. apply agree_blocks in U.
  pose proof (pflow_wf _ _ _ _ _ _ _ _ _ _ _ E) as Wf. destruct (c15_loops_complete nl Wf) as (ls & El & [Hl _] & _). rewrite NL in El. injection El as <-. specialize (Hl eq_refl).
  destruct (seq_gen vz istrue hits rb h nm ports width conns [] (blocks l) (regs_of l) (blocks_wf vz rb h ports conns l W) (blocks_comb vz rb h nm ports conns l W Cb) (blocks_regs vz rb h ports conns l Wr) (map task_block l) (tasks_perm l) s nl (gnodes (ng nl) ++ seq 0 (bnext (fb s))) E) with (v1 := v1) (v2 := v2) as (_ & _ & T); auto.
  - intros m m' _ [(e & Ie & _ & _) _]. apply in_or_app. left. apply (mir_out _ Wf) in Ie. apply Ie.
  - intros m _ Q. apply Hl. exists m. now apply back_cycle.
  - intros t i. destruct (by_procs_dec (regs_of l) t i) as [Q|Q]; [now apply R|]. apply T; [|exact Q]. intros n L. apply in_or_app. right. apply in_seq. lia.
Qed.
Print Assumptions c131_values_determined.

Lemma tasks_settle : forall {V} (vz : V) istrue hits rb h nm ports width conns l, wf_tasks vz rb h ports conns l -> driven_once vz ports conns (asgs_of l) (procs_of l) ->
  forall s nl, tflow vz rb h nm ports width conns l = Some (s, nl) -> getAllLoops nl = Some [] ->
  exists f : (nat -> nat -> V) -> (nat -> nat -> V), forall v0, psettled vz istrue hits conns (asgs_of l) (procs_of l) (f v0) /\ same_givens ports conns (asgs_of l) (procs_of l) (regs_of l) (f v0) v0.
Proof.
  intros V vz istrue hits rb h nm ports width conns l (W & Cb & Wr) Do s nl E NL. rewrite tflow_blocks in E.
  pose proof (blocks_wf vz rb h ports conns l W) as W'. pose proof (blocks_comb vz rb h nm ports conns l W Cb) as Cb'. pose proof (blocks_regs vz rb h ports conns l Wr) as Wr'. pose proof (tasks_perm l) as Pm. pose proof (once_blocks vz ports conns l Do) as Do'.
  pose proof (pflow_wf _ _ _ _ _ _ _ _ _ _ _ E) as Wf. destruct (c15_loops_complete nl Wf) as (ls & El & [Hl _] & _). rewrite NL in El. injection El as <-. specialize (Hl eq_refl).
  set (cone := gnodes (ng nl) ++ seq 0 (bnext (fb s))).
  exists (fun v0 => iter vz istrue hits conns [] (blocks l) v0 (2 * length cone + 1)). intros v0. split.
  - apply (settled_back vz istrue hits rb h ports conns l W); [intros a Ia; exact (do_asg _ _ _ _ _ Do a _ Ia)|].
    apply (iter_settled vz istrue hits rb h nm ports width conns [] (blocks l) (regs_of l) W' Cb' Wr' Do' (map task_block l) s nl cone Pm E).
    + intros m m' _ [(e & Ie & _ & _) _]. apply in_or_app. left. apply (mir_out _ Wf) in Ie. apply Ie.
    + intros m _ Q. apply Hl. exists m. now apply back_cycle.
    + intros n L. apply in_or_app. right. apply in_seq. lia.
  - assert (G : same_givens ports conns [] (blocks l) (regs_of l) (iter vz istrue hits conns [] (blocks l) v0 (2 * length cone + 1)) v0) by (eapply iter_givens; eauto).
    destruct G as [G1 G2 G3]. split; [exact G1|exact G2|]. apply agree_blocks. exact G3.
Qed.
(** So there is one run for each sequence of inputs and first state. *)
Theorem c131_one_run : forall {V} (vz : V) istrue hits rb h nm ports width conns l, wf_tasks vz rb h ports conns l -> driven_once vz ports conns (asgs_of l) (procs_of l) ->
  forall s nl, tflow vz rb h nm ports width conns l = Some (s, nl) -> getAllLoops nl = Some [] ->
  forall ins, exists run, machine_run vz istrue hits ports conns (asgs_of l) (procs_of l) (regs_of l) ins run /\
    forall run', machine_run vz istrue hits ports conns (asgs_of l) (procs_of l) (regs_of l) ins run' -> forall k t i, run' k t i = run k t i.
Proof.
  intros V vz istrue hits rb h nm ports width conns l W Do s nl E NL. apply (runs vz istrue hits rb h ports conns _ _ _ (proj2 (proj2 W))).
  - exact (tasks_settle vz istrue hits rb h nm ports width conns l W Do s nl E NL).
  - exact (c131_values_determined vz istrue hits rb h nm ports width conns l W s nl E NL).
Qed.
Print Assumptions c131_one_run.

(** The machine of C117, the block before the assignment that the output port gets:
    always_ff @(posedge clk) begin if (c) r <= a; q <= r; end
    assign y = q; *)
Notation od_ff := (TProc (FProc [(9, EKPos)] sq_body)).
Notation od_y := (TAsg (FAsg (bits_of 13 0 1 : expr bool) (bits_of 15 0 1))).
Notation od_flow l := (tflow false true no_h (fun _ => []) sq_ports (fun _ => 1%Z) [] l).
Lemma od_wf : wf_design false true no_h sq_ports [] [FAsg (bits_of 13 0 1 : expr bool) (bits_of 15 0 1)].
Proof.
  destruct sq_wf as [A1 A2 A3 A4 _ _ A7 A8 A9]. split; auto.
  - intros a [<-|[]]. split; [exact I|]; split; [cbn; repeat split; try lia; discriminate|]; split; [cbn; repeat constructor; cbn; intuition congruence|]; split; [|discriminate].
    intros q p Iq Ip R; cbn in Iq; each Iq; cbn in Ip; each Ip; try discriminate R; pick.
  - intros a [<-|[]]. split; [readable_ok|]. split; [intros k x I; repeat (destruct k as [|k]; [cbn in I; destruct I as [I|[]]; discriminate|]); cbn in I; destruct k; destruct I|].
    split; [reflexivity|]. intros s i J K; cbn in J, K. intuition congruence.
Qed.
Lemma od_regs : wf_regs false true no_h sq_ports [] [FAsg (bits_of 13 0 1 : expr bool) (bits_of 15 0 1)] [] (clocked sq_body).
Proof.
  split.
  - repeat constructor; intros [].
  - intros x [<-|[]]. exact sq_clocked.
  - intros s i j (x & [<-|[]] & M) [D|(y & [] & _)]. destruct D as [p Ip Ep _|a [<-|[]] J|? []].
    + cbn in Ip; each Ip; cbn in Ep; subst; cbn in M; intuition congruence.
    + cbn in J, M. intuition congruence.
  - intros s i p (x & [<-|[]] & M) I; cbn in I; each I; cbn in M |- *; intros ->; intuition congruence.
  - intros x y s i j [<-|[]] [<-|[]] _ _; reflexivity.
Qed.
Example od_tasks : wf_tasks false true no_h sq_ports [] [od_ff; od_y].
Proof. split; [exact od_wf|split; [intros x []|exact od_regs]]. Qed.
Example od_tasks' : wf_tasks false true no_h sq_ports [] [od_y; od_ff].
Proof. split; [exact od_wf|split; [intros x []|exact od_regs]]. Qed.
(** The two orders give the nodes different numbers. *)
Example od_cones :
  match od_flow [od_ff; od_y], od_flow [od_y; od_ff] with
  | Some (s, nl), Some (s', nl') =>
      skipn 5 (bnodes (fb s)) = [(9, BState 14 (zrange 0 1)); (10, BState 15 (zrange 0 1))] /\ getCombFanIn nl 3 = Some [3; 11] /\ getAllLoops nl = Some [] /\
      skipn 5 (bnodes (fb s')) = [(10, BState 14 (zrange 0 1)); (11, BState 15 (zrange 0 1))] /\ getCombFanIn nl' 3 = Some [3; 5] /\ getAllLoops nl' = Some []
  | _, _ => False end.
Proof. vm_compute. repeat split. Qed.
Lemma od_once : driven_once false sq_ports [] [FAsg (bits_of 13 0 1) (bits_of 15 0 1)] [].
Proof.
  split.
  - intros [a|c|x|p] [a'|c'|x'|p'] s i G G'; cbn [gives] in G, G'; try (now destruct G as [[] _]); try (now destruct G' as [[] _]).
    + destruct G as [[<-|[]] _], G' as [[<-|[]] _]. reflexivity.
    + exfalso. destruct G as [[<-|[]] G], G' as [E (Ip & (lo & hi & I & _) & _)]. cbn in G, Ip. each Ip; cbn in E, I; destruct I as [I|[]]; try discriminate I; subst; intuition congruence.
    + exfalso. destruct G' as [[<-|[]] G'], G as [E (Ip & (lo & hi & I & _) & _)]. cbn in G', Ip. each Ip; cbn in E, I; destruct I as [I|[]]; try discriminate I; subst; intuition congruence.
    + f_equal. destruct G as [E Fp], G' as [E' Fp']. eapply (free_one sq_ports); eauto; [|congruence]. cbn. repeat constructor; cbn; lia.
  - intros c [].
  - intros c i [].
  - intros a v [<-|[]]. reflexivity.
  - intros c v [].
Qed.
(** Both give the machine with one run. *)
Example c131_ex : forall l, l = [od_ff; od_y] \/ l = [od_y; od_ff] -> forall ins,
  exists run, machine_run false holds matches sq_ports [] [FAsg (bits_of 13 0 1) (bits_of 15 0 1)] [] (clocked sq_body) ins run /\
    forall run', machine_run false holds matches sq_ports [] [FAsg (bits_of 13 0 1) (bits_of 15 0 1)] [] (clocked sq_body) ins run' -> forall k t i, run' k t i = run k t i.
Proof.
  intros l L ins. pose proof od_cones as C.
  destruct (od_flow [od_ff; od_y]) as [[s nl]|] eqn:E; [|destruct C]. destruct (od_flow [od_y; od_ff]) as [[s' nl']|] eqn:E'; [|destruct C]. destruct C as (_ & _ & N & _ & _ & N').
  destruct L as [-> | ->].
  - exact (c131_one_run false holds matches true no_h (fun _ => []) sq_ports (fun _ => 1%Z) [] [od_ff; od_y] od_tasks od_once s nl E N ins).
  - exact (c131_one_run false holds matches true no_h (fun _ => []) sq_ports (fun _ => 1%Z) [] [od_y; od_ff] od_tasks' od_once s' nl' E' N' ins).
Qed.
