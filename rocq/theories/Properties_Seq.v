(** C117, C118: designs with registers, from the source text to the answer of a query. *)
From Verif Require Import Base M_Graph M_Range M_Netlist M_DFS M_Path M_Annot M_Interval M_Heap M_Drivers M_Pending M_DFA M_Builder M_Slice M_Port M_Flow M_Proc
  S_Graph S_Reach S_Netlist S_DFA S_Slice S_Port S_Flow S_Proc S_Seq P_Flow5 P_Flow6 P_Flow8 P_Proc3 P_Seq3 Properties_Flow Properties_Proc.

(** The contracts on a design: ports, connections, continuous assignments, combinational
    blocks, clocked blocks. *)
Definition wf_clocked {V} (vz : V) rb h ports conns asgs procs regs : Prop :=
  wf_design vz rb h ports conns asgs /\ (forall x, In x procs -> comb_block vz rb h ports x) /\ wf_regs vz rb h ports conns asgs procs regs.
(** Input ports of the design that have a node in the cone agree. *)
Definition inputs_agree {V} ports (conns : list (fconn V)) (s : fl) (cone : list nat) (v1 v2 : nat -> nat -> V) : Prop :=
  forall p m a c i, free_input ports conns p i -> In m cone -> In (m, BPort (fp_id p) (zrange a c)) (bnodes (fb s)) -> a <= i <= c -> v1 (fp_sy p) i = v2 (fp_sy p) i.
(** Registers whose State node has an edge into the cone agree. *)
Definition feeders_agree {V} (s : fl) (nl : netlist) (cone : list nat) (v1 v2 : nat -> nat -> V) : Prop :=
  forall n t w m j, In (n, BState t w) (bnodes (fb s)) -> In m cone -> Conn nl n m -> bit w (Z.of_nat j) -> v1 t j = v2 t j.
(** The nodes of the cone read registers in the ranges of their State nodes. *)
Definition reads_whole {V} (regs : list (fproc V)) (s : fl) (cone : list nat) : Prop :=
  forall p m, In p (bpend (fb s)) -> pnode p = Some m -> In m cone -> (exists i, S_Seq.register regs (psym p) i) ->
    exists n, In (n, BState (psym p) (pbounds p)) (bnodes (fb s)).

(** All registers having the same values before the clock edge: the inputs in the cone of
    an output port determine the output. *)
Theorem c117_output_same_state : forall {V} (vz : V) istrue hits rb h nm ports width conns asgs procs regs, wf_clocked vz rb h ports conns asgs procs regs ->
  forall s nl q n lo hi cone,
  pflow vz rb h nm ports width conns asgs (procs ++ regs) = Some (s, nl) -> In q ports -> In (n, BPort (fp_id q) (zrange lo hi)) (bnodes (fb s)) ->
  getCombFanIn nl n = Some cone -> (forall m, In m cone -> ~ Reach1 (CombBack nl) m m) ->
  forall v1 v2, psettled vz istrue hits conns asgs procs v1 -> psettled vz istrue hits conns asgs procs v2 -> pagree_undriven ports conns asgs procs v1 v2 ->
  inputs_agree ports conns s cone v1 v2 ->
  forall i, lo <= i <= hi -> v1 (fp_sy q) i = v2 (fp_sy q) i.
Proof.
  intros V vz istrue hits rb h nm ports width conns asgs procs regs (W & Cb & Wr) s nl q n lo hi cone E Iq In_ C Ac v1 v2 S1 S2 U A i L.
  destruct (seq_cone vz istrue hits rb h nm ports width conns asgs procs regs W Cb Wr (procs ++ regs) (Permutation.Permutation_refl _) s nl n cone E C Ac v1 v2 S1 S2) as [T _]; auto.
  - intros t j N _. now apply U.
  - intros m t j _ _ R. apply U. exact (wr_alone _ _ _ _ _ _ _ _ Wr t j j R).
  - apply (T q n lo hi i); auto. destruct (fanIn_of nl n cone (pflow_wf _ _ _ _ _ _ _ _ _ _ _ E) C) as [Ic _]. exact Ic.
Qed.
Print Assumptions c117_output_same_state.

(** The same for a register: the inputs in the cone of its State node determine the value
    that it takes at the clock edge. *)
Theorem c117_register_same_state : forall {V} (vz : V) istrue hits rb h nm ports width conns asgs procs regs, wf_clocked vz rb h ports conns asgs procs regs ->
  forall s nl x n t w cone,
  pflow vz rb h nm ports width conns asgs (procs ++ regs) = Some (s, nl) -> In x regs -> In (n, BState t w) (bnodes (fb s)) ->
  getCombFanIn nl n = Some cone -> (forall m, In m cone -> ~ Reach1 (CombBack nl) m m) ->
  forall v1 v2, psettled vz istrue hits conns asgs procs v1 -> psettled vz istrue hits conns asgs procs v2 -> pagree_undriven ports conns asgs procs v1 v2 ->
  inputs_agree ports conns s cone v1 v2 ->
  forall j, bit w (Z.of_nat j) -> may (pr_body x) t j -> after_edge vz istrue hits x v1 t j = after_edge vz istrue hits x v2 t j.
Proof.
  intros V vz istrue hits rb h nm ports width conns asgs procs regs (W & Cb & Wr) s nl x n t w cone E Ix In_ C Ac v1 v2 S1 S2 U A j B M.
  destruct (seq_cone vz istrue hits rb h nm ports width conns asgs procs regs W Cb Wr (procs ++ regs) (Permutation.Permutation_refl _) s nl n cone E C Ac v1 v2 S1 S2) as [_ T]; auto.
  - intros t' j' N _. now apply U.
  - intros m t' j' _ _ R. apply U. exact (wr_alone _ _ _ _ _ _ _ _ Wr t' j' j' R).
  - apply (T x n t w j); auto.
    + destruct (fanIn_of nl n cone (pflow_wf _ _ _ _ _ _ _ _ _ _ _ E) C) as [Ic _]. exact Ic.
    + apply U. apply (wr_alone _ _ _ _ _ _ _ _ Wr t j j). exists x. auto.
Qed.
Print Assumptions c117_register_same_state.

(** Only the registers with an edge into the cone need to agree, if registers are read in
    the ranges in which they are written. *)
Theorem c117_output : forall {V} (vz : V) istrue hits rb h nm ports width conns asgs procs regs, wf_clocked vz rb h ports conns asgs procs regs ->
  forall s nl q n lo hi cone,
  pflow vz rb h nm ports width conns asgs (procs ++ regs) = Some (s, nl) -> In q ports -> In (n, BPort (fp_id q) (zrange lo hi)) (bnodes (fb s)) ->
  getCombFanIn nl n = Some cone -> (forall m, In m cone -> ~ Reach1 (CombBack nl) m m) -> reads_whole regs s cone ->
  forall v1 v2, psettled vz istrue hits conns asgs procs v1 -> psettled vz istrue hits conns asgs procs v2 -> ragree_undriven ports conns asgs procs regs v1 v2 ->
  inputs_agree ports conns s cone v1 v2 -> feeders_agree s nl cone v1 v2 ->
  forall i, lo <= i <= hi -> v1 (fp_sy q) i = v2 (fp_sy q) i.
Proof.
  intros V vz istrue hits rb h nm ports width conns asgs procs regs (W & Cb & Wr) s nl q n lo hi cone E Iq In_ C Ac Rw v1 v2 S1 S2 U A Fa i L.
  destruct (seq_cone vz istrue hits rb h nm ports width conns asgs procs regs W Cb Wr (procs ++ regs) (Permutation.Permutation_refl _) s nl n cone E C Ac v1 v2 S1 S2 U A) as [T _].
  - intros m t j Im R Rt. destruct (reg_edge vz istrue hits rb h nm ports width conns asgs procs regs W Cb Wr (procs ++ regs) (Permutation.Permutation_refl _) s nl m t j E) as (n' & w & I' & B & Cn); auto; [|exact (Fa n' t w m j I' Im Cn B)].
    intros p Ip Pn. exact (Rw p m Ip Pn Im).
  - apply (T q n lo hi i); auto. destruct (fanIn_of nl n cone (pflow_wf _ _ _ _ _ _ _ _ _ _ _ E) C) as [Ic _]. exact Ic.
Qed.
Print Assumptions c117_output.
(** For a register also its own bits before the edge, which it may keep. *)
Theorem c117_register : forall {V} (vz : V) istrue hits rb h nm ports width conns asgs procs regs, wf_clocked vz rb h ports conns asgs procs regs ->
  forall s nl x n t w cone,
  pflow vz rb h nm ports width conns asgs (procs ++ regs) = Some (s, nl) -> In x regs -> In (n, BState t w) (bnodes (fb s)) ->
  getCombFanIn nl n = Some cone -> (forall m, In m cone -> ~ Reach1 (CombBack nl) m m) -> reads_whole regs s cone ->
  forall v1 v2, psettled vz istrue hits conns asgs procs v1 -> psettled vz istrue hits conns asgs procs v2 -> ragree_undriven ports conns asgs procs regs v1 v2 ->
  inputs_agree ports conns s cone v1 v2 -> feeders_agree s nl cone v1 v2 ->
  forall j, bit w (Z.of_nat j) -> may (pr_body x) t j -> v1 t j = v2 t j -> after_edge vz istrue hits x v1 t j = after_edge vz istrue hits x v2 t j.
Proof.
  intros V vz istrue hits rb h nm ports width conns asgs procs regs (W & Cb & Wr) s nl x n t w cone E Ix In_ C Ac Rw v1 v2 S1 S2 U A Fa j B M Ev.
  destruct (seq_cone vz istrue hits rb h nm ports width conns asgs procs regs W Cb Wr (procs ++ regs) (Permutation.Permutation_refl _) s nl n cone E C Ac v1 v2 S1 S2 U A) as [_ T].
  - intros m t' j' Im R Rt. destruct (reg_edge vz istrue hits rb h nm ports width conns asgs procs regs W Cb Wr (procs ++ regs) (Permutation.Permutation_refl _) s nl m t' j' E) as (n' & w' & I' & B' & Cn); auto; [|exact (Fa n' t' w' m j' I' Im Cn B')].
    intros p Ip Pn. exact (Rw p m Ip Pn Im).
  - apply (T x n t w j); auto. destruct (fanIn_of nl n cone (pflow_wf _ _ _ _ _ _ _ _ _ _ _ E) C) as [Ic _]. exact Ic.
Qed.
Print Assumptions c117_register.

(** The analysis of the blocks never fails; every bit that a clocked block assigns has a
    State node, and State nodes stand for nothing else. *)
Theorem c117_built : forall {V} (vz : V) rb h nm ports width conns asgs procs regs, wf_clocked vz rb h ports conns asgs procs regs ->
  exists s, pflow_state vz rb h nm ports width conns asgs (procs ++ regs) = DOk s /\
    forall t j, S_Seq.register regs t j <-> exists n w, In (n, BState t w) (bnodes (fb s)) /\ bit w (Z.of_nat j).
Proof.
  intros V vz rb h nm ports width conns asgs procs regs (W & Cb & Wr).
  destruct (sstate_built vz (fun _ => true) (fun _ _ => true) rb h nm ports width conns asgs procs regs W Cb Wr (procs ++ regs) (Permutation.Permutation_refl _)) as (b1 & ops & s & G0 & X & C & E & Pm & B).
  exists s. split; [exact E|]. intros t j. split.
  - intros R. destruct (sb_cover _ _ _ _ _ _ _ _ _ _ _ _ _ B t j R) as (n & a & c & I & L). exists n, (zrange a c). split; [exact I|].
    unfold zrange, bit. cbn. lia.
  - intros (n & w & I & Bw). destruct (sb_state _ _ _ _ _ _ _ _ _ _ _ _ _ B n t w I) as (_ & x & a & c & Ix & -> & Sn). exists x. split; [exact Ix|].
    pose proof (P_Seq2.sn_le _ _ _ _ _ _ _ _ _ _ _ _ _ _ Sn). apply (P_Seq2.sn_may _ _ _ _ _ _ _ _ _ _ _ _ _ _ Sn). unfold zrange, bit in Bw. cbn in Bw. lia.
Qed.
Print Assumptions c117_built.

(** input [1:0] a, b; input c; output [1:0] y; input clk; logic [1:0] r, q;
    always_ff @(posedge clk) begin if (c) r <= a; q <= r; end
    always_comb y = q; *)
Definition sq_ports := pe_ports ++ [FPort 4 9 [(0, 0, true)]].
Notation sq_comb := [FProc [] (PAsg true (bits_of 13 0 1) (bits_of 15 0 1))].
Definition sq_body : pst bool :=
  PSeq (PIf (bits_of 12 0 0) (PAsg false (bits_of 14 0 1) (bits_of 10 0 1))) (PAsg false (bits_of 15 0 1) (bits_of 14 0 1)).
Notation clocked b := [FProc [(9, EKPos)] b].
Notation sq_flow p b := (pflow false true no_h (fun _ => []) sq_ports (fun _ => 1%Z) [] [] (p ++ clocked b)).

Lemma sq_wf : wf_design false true no_h sq_ports [] ([] : list (fasg bool)).
Proof.
  split; try solve [intros c []].
  - intros s l. discriminate.
  - cbn. repeat constructor; cbn; lia.
  - cbn. repeat constructor; cbn; lia.
  - intros p I. cbn in I. each I.
    all: (split; [intros lo hi x [[= <- <- <-]|[]]; lia|]; intros l lo hi x l' lo' hi' x' l'' E; cbn in E; destruct l as [|? l]; [destruct l'; discriminate|destruct l; discriminate]).
Qed.
Ltac nasg_tac :=
  split; [reflexivity|split; [split; [exact I|split; [cbn; repeat split; try lia; discriminate|split; [cbn; repeat constructor; cbn; intuition congruence|split; [|discriminate]]]]|split; [readable_ok|split; [|reflexivity]]]];
  [ let q := fresh in let p := fresh in let Iq := fresh in let Ip := fresh in let R := fresh in intros q p Iq Ip R; cbn in Iq; each Iq; cbn in Ip; each Ip; try discriminate R; pick
  | let k := fresh "k" in let x := fresh in let I := fresh "I" in intros k x I; repeat (destruct k as [|k]; [cbn in I; destruct I as [I|[]]; discriminate|]); cbn in I; destruct k; destruct I ].
Ltac nstmt_tac :=
  match goal with
  | |- nstmt_ok ?v ?r ?h ?o ?p => let p' := eval hnf in p in change p with p';
      lazymatch p' with
      | PSeq ?a ?b => change (nstmt_ok v r h o a /\ nstmt_ok v r h o b); split; nstmt_tac
      | PIf ?c ?a => change (cond_ok o c /\ nstmt_ok v r h o a); split; [cond_ok_tac|nstmt_tac]
      | PIfElse ?c ?a ?b => change (cond_ok o c /\ nstmt_ok v r h o a /\ nstmt_ok v r h o b); split; [cond_ok_tac|split; nstmt_tac]
      | PCase ?c ?l => change (cond_ok o c /\ nitems_ok v r h o l); split; [cond_ok_tac|nstmt_tac]
      | PAsg ?b ?x ?y => change (nasg_ok v r h o b x y); red; nasg_tac
      | PSkip => exact I
      end
  | |- nitems_ok ?v ?r ?h ?o ?p => let p' := eval hnf in p in change p with p';
      lazymatch p' with
      | PDefault ?a => change (nstmt_ok v r h o a); nstmt_tac
      | PItem ?xs ?a ?l => change ((forall y, In y xs -> cond_ok o y) /\ nstmt_ok v r h o a /\ nitems_ok v r h o l);
          split; [let y := fresh in let J := fresh in intros y J; repeat (destruct J as [<-|J]; [cond_ok_tac|]); destruct J|split; nstmt_tac]
      end
  end.
Ltac aligned_tac :=
  let p := fresh "p" in let E := fresh "E" in intros p E; vm_compute in E; injection E as <-;
  intros ?l ?sy ?b ?l' ?b' ?I ?I'; cbn in *;
  repeat match goal with H : _ \/ _ |- _ => destruct H | H : False |- _ => destruct H | H : (_, _, _) = (_, _, _) |- _ => injection H; clear H; intros end;
  subst; try discriminate; cbn; lia.
Ltac decided_tac :=
  let M := fresh "M" in intros ?s ?i M; cbn in M; repeat match goal with H : _ \/ _ |- _ => destruct H end; try contradiction;
  match goal with H : (_, _) = (_, _) |- _ => injection H as <- <- end; cbn; first [tauto|left; split; [tauto|intuition congruence]|right; split; [left; intuition congruence|tauto]|right; split; [right; intros; tauto|tauto]].
Lemma sq_block : comb_block false true no_h sq_ports (FProc [] (PAsg true (bits_of 13 0 1) (bits_of 15 0 1))).
Proof.
  split.
  - reflexivity.
  - cbn [pr_body]. stmt_tac.
  - cbn. tauto.
  - cbn. intuition.
  - reads_tac.
  - ranges_tac.
Qed.
Lemma sq_clocked : clocked_block false true no_h sq_ports (FProc [(9, EKPos)] sq_body).
Proof.
  split.
  - discriminate.
  - cbn [pr_body]. nstmt_tac.
  - cbn. tauto.
  - aligned_tac.
  - decided_tac.
Qed.
(** Registers are the symbols 14 and 15. *)
Ltac alone_tac M D :=
  destruct D as [D|(?x & [<-|[]] & D)];
  [ destruct D as [?p ?Ip ?Ep _|? []|? []]; match goal with Ip : In _ _ |- _ => cbn in Ip; each Ip end; match goal with Ep : _ = _ |- _ => cbn in Ep; subst end; cbn in M; intuition congruence
  | cbn in M, D; intuition congruence ].
Ltac regs_tac b :=
  split;
  [ repeat constructor; intros []
  | let x := fresh in intros x [<-|[]]; exact b
  | let M := fresh "M" in let D := fresh "D" in intros ?s ?i ?j (?x & [<-|[]] & M) D; alone_tac M D
  | let M := fresh "M" in let I := fresh "I" in intros ?s ?i ?p (?x & [<-|[]] & M) I; cbn in I; each I; cbn in M |- *; intros ->; intuition congruence
  | intros ?x ?y ?s ?i ?j [<-|[]] [<-|[]] _ _; reflexivity ].
Lemma sq_regs : wf_regs false true no_h sq_ports [] [] sq_comb (clocked sq_body).
Proof. regs_tac sq_clocked. Qed.
Lemma sq_all : wf_clocked false true no_h sq_ports [] [] sq_comb (clocked sq_body).
Proof. split; [exact sq_wf|split; [intros x [<-|[]]; exact sq_block|exact sq_regs]]. Qed.
Example sq_cones : match sq_flow sq_comb sq_body with
  | Some (s, nl) => skipn 5 (bnodes (fb s)) = [(10, BState 14 (zrange 0 1)); (11, BState 15 (zrange 0 1))] /\
      getCombFanIn nl 3 = Some [3; 5] /\ getCombFanIn nl 10 = Some [10; 7; 6; 2; 0; 4] /\ getCombFanIn nl 11 = Some [11; 9; 6; 2; 4]
  | None => False end.
Proof. vm_compute. repeat split. Qed.
(** So the value that [q] takes is determined by [r], [c] and [q]: not [a], not [b]. *)
Example sq_determined : forall v1 v2, psettled false holds matches [] [] sq_comb v1 -> psettled false holds matches [] [] sq_comb v2 ->
  ragree_undriven sq_ports [] [] sq_comb (clocked sq_body) v1 v2 ->
  (forall t i, In t [9; 12; 14; 15] -> v1 t i = v2 t i) ->
  forall j, j <= 1 -> after_edge false holds matches (FProc [(9, EKPos)] sq_body) v1 15 j = after_edge false holds matches (FProc [(9, EKPos)] sq_body) v2 15 j.
Proof.
  intros v1 v2 S1 S2 U A j L.
  assert (B : match sq_flow sq_comb sq_body with
    | Some (s, nl) => getCombFanIn nl 11 = Some [11; 9; 6; 2; 4] /\
        ranked nl (fun n => nth n [0; 0; 0; 6; 1; 2; 3; 5; 6; 7; 8; 9] 0) [11; 9; 6; 2; 4] = true /\
        bnodes (fb s) = map (fun n => (n, BPort n (if orb (Nat.eqb n 2) (Nat.eqb n 4) then zrange 0 0 else zrange 0 1))) (seq 0 5) ++ [(10, BState 14 (zrange 0 1)); (11, BState 15 (zrange 0 1))] /\
        forallb (fun p => existsb (Nat.eqb (psym p)) [9; 10; 11; 12; 13] || (Z.eqb (rleft (pbounds p)) 0 && Z.eqb (rright (pbounds p)) 1)) (bpend (fb s)) = true
    | None => False end).
  { vm_compute. repeat split. }
  destruct (sq_flow sq_comb sq_body) as [[s nl]|] eqn:E; [|destruct B]. destruct B as (C & R & N & P).
  apply (c117_register false holds matches true no_h (fun _ => []) sq_ports (fun _ => 1%Z) [] [] sq_comb (clocked sq_body) sq_all s nl (FProc [(9, EKPos)] sq_body) 11 15 (zrange 0 1) [11; 9; 6; 2; 4] E).
  - now left.
  - rewrite N. cbn. tauto.
  - exact C.
  - exact (ranked_acyclic nl 11 _ _ (pflow_wf _ _ _ _ _ _ _ _ _ _ _ E) C R).
  - intros p m Ip _ _ (i & x & [<-|[]] & M). rewrite forallb_forall in P. specialize (P p Ip).
    assert (T : psym p = 14 \/ psym p = 15) by (cbn in M; intuition congruence).
    assert (Bd : pbounds p = zrange 0 1). { destruct (pbounds p) as [x y]. destruct T as [T|T]; rewrite T in P; cbn in P; apply andb_true_iff in P as [P1 P2]; apply Z.eqb_eq in P1, P2; subst; reflexivity. }
    rewrite Bd, N. destruct T as [->| ->]; [exists 10|exists 11]; cbn; tauto.
  - exact S1.
  - exact S2.
  - exact U.
  - intros p m a c k (Ip & (lo & hi & I & K) & Fr) Im J _. rewrite N in J. cbn in J, Im. 
    cbn in Ip. each Ip; cbn in I; destruct I as [I|[]]; try discriminate I; try (apply A; cbn; tauto); exfalso; intuition (try congruence); subst; try discriminate; intuition congruence.
  - intros n t w m k J _ _ _. rewrite N in J. cbn in J. repeat (destruct J as [J|J]; [inversion J; subst; apply A; cbn; tauto|]). destruct J.
  - unfold bit, zrange. cbn. lia.
  - cbn. destruct j as [|[|j]]; [tauto|tauto|lia].
  - apply A. cbn. tauto.
Qed.

(** always_ff @(posedge clk) case (r) a: r <= b; endcase
    with the same combinational block [y = r]: the cone of [r] has [a], from the item of the
    case, and [b]. *)
Definition sc_body : pst bool := PCase (bits_of 14 0 1) (PItem [bits_of 10 0 1] (PAsg false (bits_of 14 0 1) (bits_of 11 0 1)) (PDefault PSkip)).
Lemma sc_clocked : clocked_block false true no_h sq_ports (FProc [(9, EKPos)] sc_body).
Proof.
  split.
  - discriminate.
  - cbn [pr_body]. nstmt_tac.
  - cbn. tauto.
  - aligned_tac.
  - decided_tac.
Qed.
Notation sc_comb := [FProc [] (PAsg true (bits_of 13 0 1) (bits_of 14 0 1))].
Lemma sc_out : comb_block false true no_h sq_ports (FProc [] (PAsg true (bits_of 13 0 1) (bits_of 14 0 1))).
Proof.
  split.
  - reflexivity.
  - cbn [pr_body]. stmt_tac.
  - cbn. tauto.
  - cbn. intuition.
  - reads_tac.
  - ranges_tac.
Qed.
Lemma sc_all : wf_clocked false true no_h sq_ports [] [] sc_comb (clocked sc_body).
Proof. split; [exact sq_wf|split; [intros x [<-|[]]; exact sc_out|regs_tac sc_clocked]]. Qed.
Example sc_cone : match sq_flow sc_comb sc_body with
  | Some (s, nl) => skipn 5 (bnodes (fb s)) = [(9, BState 14 (zrange 0 1))] /\ getCombFanIn nl 9 = Some [9; 7; 6; 0; 1; 4]
  | None => False end.
Proof. vm_compute. repeat split. Qed.

(** always_ff @(posedge clk) if (c) r <= 0; else r <= a;
    Two places assign [r]; the first one a constant. *)
Definition zero2 : expr bool := EOther 2 (Some [false; false]) [] (fun _ => [false; false]).
Definition rs_body : pst bool := PIfElse (bits_of 12 0 0) (PAsg false (bits_of 14 0 1) zero2) (PAsg false (bits_of 14 0 1) (bits_of 10 0 1)).
Lemma rs_reset : nasg_ok false true no_h sq_ports false (bits_of 14 0 1) zero2.
Proof.
  split; [reflexivity|]. split; [split; [exact I|split; [cbn; repeat split; try lia; discriminate|split; [cbn; repeat constructor; cbn; intuition congruence|split; [|discriminate]]]]|].
  { intros q p Iq Ip R. cbn in Iq. each Iq. cbn in Ip. each Ip; discriminate R. }
  split; [|split; [|reflexivity]].
  - split; [cbn; repeat split; lia|]. split; [intros s i p []|]. intros _. cbn. repeat split; try lia; try discriminate. intros c v [= <-]. reflexivity.
  - intros k x J. destruct k as [|[|k]]; [destruct J as [J|[]]; discriminate|destruct J as [J|[]]; discriminate|]. cbn in J. destruct k; destruct J.
Qed.
Lemma rs_clocked : clocked_block false true no_h sq_ports (FProc [(9, EKPos)] rs_body).
Proof.
  split.
  - discriminate.
  - change (cond_ok sq_ports (bits_of 12 0 0) /\ nasg_ok false true no_h sq_ports false (bits_of 14 0 1) zero2 /\ nstmt_ok false true no_h sq_ports (PAsg false (bits_of 14 0 1) (bits_of 10 0 1))).
    split; [cond_ok_tac|]. split; [exact rs_reset|]. nstmt_tac.
  - cbn. tauto.
  - aligned_tac.
  - decided_tac.
Qed.
Lemma rs_all : wf_clocked false true no_h sq_ports [] [] sc_comb (clocked rs_body).
Proof. split; [exact sq_wf|split; [intros x [<-|[]]; exact sc_out|regs_tac rs_clocked]]. Qed.
(** The cone has the reset and the data input. *)
Example rs_cone : match sq_flow sc_comb rs_body with
  | Some (s, nl) => skipn 5 (bnodes (fb s)) = [(11, BState 14 (zrange 0 1))] /\ getCombFanIn nl 11 = Some [11; 9; 6; 2; 0; 4]
  | None => False end.
Proof. vm_compute. repeat split. Qed.

(** * Where it fails *)
(** What [c117_register_same_state] and [c117_output] say, for the ports above, one
    combinational and one clocked block; the latter without the condition on reads. *)
Definition next_determined (p b : pst bool) : Prop :=
  forall s nl n t w cone,
  sq_flow [FProc [] p] b = Some (s, nl) -> In (n, BState t w) (bnodes (fb s)) -> getCombFanIn nl n = Some cone -> (forall m, In m cone -> ~ Reach1 (CombBack nl) m m) ->
  forall v1 v2, psettled false holds matches [] [] [FProc [] p] v1 -> psettled false holds matches [] [] [FProc [] p] v2 -> pagree_undriven sq_ports [] [] [FProc [] p] v1 v2 ->
  inputs_agree sq_ports ([] : list (fconn bool)) s cone v1 v2 ->
  forall j, bit w (Z.of_nat j) -> may b t j -> after_edge false holds matches (FProc [(9, EKPos)] b) v1 t j = after_edge false holds matches (FProc [(9, EKPos)] b) v2 t j.
Definition output_determined (p b : pst bool) : Prop :=
  forall s nl q n lo hi cone,
  sq_flow [FProc [] p] b = Some (s, nl) -> In q sq_ports -> In (n, BPort (fp_id q) (zrange lo hi)) (bnodes (fb s)) ->
  getCombFanIn nl n = Some cone -> (forall m, In m cone -> ~ Reach1 (CombBack nl) m m) ->
  forall v1 v2, psettled false holds matches [] [] [FProc [] p] v1 -> psettled false holds matches [] [] [FProc [] p] v2 -> ragree_undriven sq_ports [] [] [FProc [] p] (clocked b) v1 v2 ->
  inputs_agree sq_ports ([] : list (fconn bool)) s cone v1 v2 -> feeders_agree s nl cone v1 v2 ->
  forall i, lo <= i <= hi -> v1 (fp_sy q) i = v2 (fp_sy q) i.
Definition sq_port_nodes : list (nat * bnode) :=
  [(0, BPort 0 (zrange 0 1)); (1, BPort 1 (zrange 0 1)); (2, BPort 2 (zrange 0 0)); (3, BPort 3 (zrange 0 1)); (4, BPort 4 (zrange 0 0))].
(** Two valuations that differ in inputs outside of the cone of the register. *)
Lemma refute_next p b r cone rank v1 v2 :
  match sq_flow [FProc [] p] b with
  | Some (s, nl) => getCombFanIn nl r = Some cone /\ ranked nl rank cone = true /\ bnodes (fb s) = sq_port_nodes ++ [(r, BState 14 (zrange 0 1))]
  | None => False end ->
  psettled false holds matches [] [] [FProc [] p] v1 -> psettled false holds matches [] [] [FProc [] p] v2 -> pagree_undriven sq_ports [] [] [FProc [] p] v1 v2 ->
  (forall t i y, In (t, y) [(0, 10); (1, 11); (2, 12); (4, 9)] -> In t cone -> v1 y i = v2 y i) -> may b 14 0 ->
  after_edge false holds matches (FProc [(9, EKPos)] b) v1 14 0 <> after_edge false holds matches (FProc [(9, EKPos)] b) v2 14 0 -> ~ next_determined p b.
Proof.
  intros B S1 S2 U A M D H. destruct (sq_flow [FProc [] p] b) as [[s nl]|] eqn:E; [|destruct B]. destruct B as (C & R & N). apply D.
  apply (H s nl r 14 (zrange 0 1) cone E); [rewrite N; cbn; tauto|exact C|exact (ranked_acyclic nl r _ _ (pflow_wf _ _ _ _ _ _ _ _ _ _ _ E) C R)|exact S1|exact S2|exact U| |unfold bit, zrange; cbn; lia|exact M].
  clear D M S1 S2 U R C. intros p' m a c k (Ip & (lo & hi & I & K) & Fr) Im J _. rewrite N in J. cbn in J.
  repeat (destruct J as [J|J]); try (exfalso; exact J); try discriminate J;
  injection J as <- J _ _; cbn in Ip; each Ip; try discriminate J; cbn in I; destruct I as [I|[]]; try discriminate I; cbn; eapply A; try exact Im; cbn; tauto.
Qed.
Ltac sq_port k lo hi :=
  left; apply (driven_port _ _ _ _ _ (nth k sq_ports (FPort 0 0 []))); [cbn; tauto|reflexivity|]; exists lo, hi; split; [left; reflexivity|lia].
Notation copy_out := (PAsg true (bits_of 13 0 1) (bits_of 14 0 1) : pst bool).
Notation sq_nstmt := (nstmt_ok false true no_h sq_ports).

(** always_ff @(posedge clk) if (c) r <= a; else r <= b;
    The second assignment replaces the first in the list of non-blocking assignments of
    the block: the cone of [r] misses [a].  All contracts but the one on several
    assignments to a bit hold. *)
Definition ie_body : pst bool := PIfElse (bits_of 12 0 0) (PAsg false (bits_of 14 0 1) (bits_of 10 0 1)) (PAsg false (bits_of 14 0 1) (bits_of 11 0 1)).
Theorem c118_else_refuted : sq_nstmt ie_body /\ top ie_body /\ ~ next_determined copy_out ie_body.
Proof.
  split; [nstmt_tac|]. split; [cbn; tauto|].
  apply (refute_next _ _ 10 [10; 8; 6; 2; 1; 4] (fun n => nth n [0; 0; 0; 0; 0; 0; 1; 0; 2; 0; 3] 0)
    (val (all 2 false) (all 2 false) (all 1 true) (all 2 false) (all 2 false)) (val (all 2 true) (all 2 false) (all 1 true) (all 2 false) (all 2 false))).
  - vm_compute. repeat split.
  - settled_tac.
  - settled_tac.
  - undriven_tac. sq_port 0 0 1.
  - intros t i y T I. cbn in T, I. repeat (destruct T as [[= <- <-]|T]); try (exfalso; exact T); try reflexivity. intuition discriminate.
  - cbn. tauto.
  - vm_compute. discriminate.
Qed.
Print Assumptions c118_else_refuted.
(** always_ff @(posedge clk) begin r <= a; if (c) r <= b; end
    The same with a default. *)
Definition df_body : pst bool := PSeq (PAsg false (bits_of 14 0 1) (bits_of 10 0 1)) (PIf (bits_of 12 0 0) (PAsg false (bits_of 14 0 1) (bits_of 11 0 1))).
Theorem c118_default_refuted : sq_nstmt df_body /\ top df_body /\ ~ next_determined copy_out df_body.
Proof.
  split; [nstmt_tac|]. split; [cbn; tauto|].
  apply (refute_next _ _ 10 [10; 8; 7; 2; 1; 4] (fun n => nth n [0; 0; 0; 0; 0; 0; 0; 1; 2; 0; 3] 0)
    (val (all 2 false) (all 2 false) (all 1 false) (all 2 false) (all 2 false)) (val (all 2 true) (all 2 false) (all 1 false) (all 2 false) (all 2 false))).
  - vm_compute. repeat split.
  - settled_tac.
  - settled_tac.
  - undriven_tac. sq_port 0 0 1.
  - intros t i y T I. cbn in T, I. repeat (destruct T as [[= <- <-]|T]); try (exfalso; exact T); try reflexivity. intuition discriminate.
  - cbn. tauto.
  - vm_compute. discriminate.
Qed.
Print Assumptions c118_default_refuted.

(** always_ff @(posedge clk) r <= a;  always_comb y[0] = r[0];
    A read of part of a register finds no State node: nothing leads to [y].  Blocks and
    registers satisfy all contracts. *)
Notation low_out := (PAsg true (bits_of 13 0 0) (bits_of 14 0 0) : pst bool).
Definition pr_reg : pst bool := PAsg false (bits_of 14 0 1) (bits_of 10 0 1).
Lemma pr_clocked : clocked_block false true no_h sq_ports (FProc [(9, EKPos)] pr_reg).
Proof.
  split.
  - discriminate.
  - cbn [pr_body]. nstmt_tac.
  - cbn. tauto.
  - aligned_tac.
  - decided_tac.
Qed.
Lemma pr_comb : comb_block false true no_h sq_ports (FProc [] low_out).
Proof.
  split.
  - reflexivity.
  - cbn [pr_body]. stmt_tac.
  - cbn. tauto.
  - cbn. intuition.
  - reads_tac.
  - ranges_tac.
Qed.
Theorem c118_part_refuted : wf_clocked false true no_h sq_ports [] [] [FProc [] low_out] (clocked pr_reg) /\ ~ output_determined low_out pr_reg.
Proof.
  split. { split; [exact sq_wf|split; [intros x [<-|[]]; exact pr_comb|regs_tac pr_clocked]]. }
  intros H.
  assert (B : match sq_flow [FProc [] low_out] pr_reg with
    | Some (s, nl) => getCombFanIn nl 3 = Some [3; 5] /\ ranked nl (fun n => if Nat.eqb n 3 then 1 else 0) [3; 5] = true /\ nouts nl 7 = [] /\
        bnodes (fb s) = sq_port_nodes ++ [(7, BState 14 (zrange 0 1))]
    | None => False end) by (vm_compute; repeat split).
  destruct (sq_flow [FProc [] low_out] pr_reg) as [[s nl]|] eqn:E; [|destruct B]. destruct B as (C & R & O & N).
  specialize (H s nl (FPort 3 13 [(0, 1, false)]) 3 0 1 [3; 5] E). cbn [fp_id fp_sy] in H.
  assert (K : val (all 2 false) (all 2 false) (all 1 false) (all 2 false) (all 2 false) 13 0 = val (all 2 false) (all 2 false) (all 1 false) (all 1 true) (all 2 true) 13 0); [|discriminate K].
  apply H.
  - cbn. tauto.
  - rewrite N. cbn. tauto.
  - exact C.
  - exact (ranked_acyclic nl 3 _ _ (pflow_wf _ _ _ _ _ _ _ _ _ _ _ E) C R).
  - settled_tac.
  - settled_tac.
  - intros t i M Q. unfold val, all. destruct (Nat.eqb t 10), (Nat.eqb t 11), (Nat.eqb t 12); try reflexivity; destruct (Nat.eqb_spec t 13); [|destruct (Nat.eqb_spec t 14); [|reflexivity]].
    + subst t. cbn [andb]. symmetry. apply Nat.ltb_ge. apply Nat.nlt_ge. intros L. apply M. right. eexists. split; [now left|]. cbn. destruct i; [tauto|lia].
    + subst t. cbn [andb]. symmetry. apply Nat.ltb_ge. apply Nat.nlt_ge. intros L. apply Q. eexists. split; [now left|]. cbn. destruct i as [|[|i]]; [tauto|tauto|lia].
  - intros p m a c k (Ip & (lo & hi & I & _) & Fr) Im J _. rewrite N in J. cbn in J, Im.
    repeat (destruct J as [J|J]); try (exfalso; exact J); try discriminate J;
    injection J as <- J _ _; cbn in Ip; each Ip; try discriminate J; cbn in I; destruct I as [I|[]]; try discriminate I; cbn; intuition discriminate.
  - intros n t w m j J _ (e & Ie & _) _. rewrite N in J. cbn in J. repeat (destruct J as [J|J]); try (exfalso; exact J); inversion J; subst.
    unfold nouts in O. rewrite O in Ie. destruct Ie.
  - lia.
Qed.
Print Assumptions c118_part_refuted.
