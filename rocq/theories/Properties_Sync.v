(** C124: a design for which no combinational loop is reported is a synchronous machine:
    the inputs and the registers determine every value and the next state. *)
From Verif Require Import Base M_Graph M_Range M_Netlist M_DFS M_Path M_Cycle M_Annot M_Interval M_Heap M_Drivers M_Pending M_DFA M_Builder M_Slice M_Port M_Flow M_Proc
  S_Graph S_Reach S_Netlist S_DFA S_Slice S_Port S_Flow S_Proc S_Seq P_Slice2 P_Flow5 P_Flow6 P_Flow8 P_Proc3 P_Seq3 Properties_Path Properties_Flow Properties_Proc Properties_Seq.

(** A cycle of combinational steps read backwards is a cycle read forwards. *)
Lemma back_nonstate nl a b : Reach (CombBack nl) a b -> a = b \/ nkind (ninf nl b) <> KState.
Proof. intros H. destruct H as [|b c H [_ N]]; auto. Qed.
Lemma back_forth nl a b : Reach (CombBack nl) a b -> nkind (ninf nl a) <> KState -> Reach (Comb nl) b a.
Proof.
  intros H N. induction H as [|b c H IH [Cn Nc]]; [constructor|]. destruct (back_nonstate nl a b H) as [<-|Nb].
  - eapply reach_step; [constructor|]. split; [exact Cn|exact N].
  - assert (S1 : Reach (Comb nl) c b) by (eapply reach_step; [constructor|]; split; [exact Cn|exact Nb]).
    clear -S1 IH. induction IH as [|x y _ IH' R]; [exact S1|]. eapply reach_step; eauto.
Qed.
Lemma back_cycle nl m : Reach1 (CombBack nl) m m -> Reach1 (Comb nl) m m.
Proof.
  intros (c & [Cn Nc] & H).
  assert (Nm : nkind (ninf nl m) <> KState) by (destruct (back_nonstate nl c m H) as [<-|N]; auto).
  pose proof (back_forth nl c m H Nc) as F. assert (L : Comb nl c m) by (split; auto).
  clear -F L.
  assert (G : forall x, Reach (Comb nl) m x -> x = m \/ exists y, Comb nl m y /\ Reach (Comb nl) y x).
  { intros x Hx. induction Hx as [|x z Hx IH Q]; [now left|right]. destruct IH as [->|(y & Y1 & Y2)]; [exists z; split; [exact Q|constructor]|].
    exists y. split; [exact Y1|]. eapply reach_step; eauto. }
  destruct (G c F) as [->|(y & Y1 & Y2)]; [exists m; split; [exact L|constructor]|]. exists y. split; [exact Y1|]. eapply reach_step; eauto.
Qed.

(** No combinational loop reported: two settled valuations that agree on the input ports
    of the design, on the registers and on the bits that nothing drives are the same. *)
Theorem c124_values_determined : forall {V} (vz : V) istrue hits rb h nm ports width conns asgs procs regs, wf_clocked vz rb h ports conns asgs procs regs ->
  forall s nl, pflow vz rb h nm ports width conns asgs (procs ++ regs) = Some (s, nl) -> getAllLoops nl = Some [] ->
  forall v1 v2, psettled vz istrue hits conns asgs procs v1 -> psettled vz istrue hits conns asgs procs v2 ->
  (forall p i, free_input ports conns p i -> v1 (fp_sy p) i = v2 (fp_sy p) i) ->
  (forall t i, S_Seq.register regs t i -> v1 t i = v2 t i) ->
  ragree_undriven ports conns asgs procs regs v1 v2 ->
  forall t i, v1 t i = v2 t i.
Proof.
  intros V vz istrue hits rb h nm ports width conns asgs procs regs (W & Cb & Wr) s nl E NL v1 v2 S1 S2 A R U.
  pose proof (pflow_wf _ _ _ _ _ _ _ _ _ _ _ E) as Wf. destruct (c15_loops_complete nl Wf) as (ls & El & [Hl _] & _). rewrite NL in El. injection El as <-. specialize (Hl eq_refl).
  destruct (seq_gen vz istrue hits rb h nm ports width conns asgs procs regs W Cb Wr (procs ++ regs) (Permutation.Permutation_refl _) s nl (gnodes (ng nl) ++ seq 0 (bnext (fb s))) E) with (v1 := v1) (v2 := v2) as (_ & _ & T); auto.
  - intros m m' _ [(e & Ie & _ & _) _]. apply in_or_app. left. apply (mir_out _ Wf) in Ie. apply Ie.
  - intros m _ Q. apply Hl. exists m. now apply back_cycle.
  - intros t i. destruct (by_procs_dec regs t i) as [Q|Q]; [now apply R|]. apply T; [|exact Q]. intros n L. apply in_or_app. right. apply in_seq. lia.
Qed.
Print Assumptions c124_values_determined.
(** So do the values that the registers take at the clock edge. *)
Lemma assign_same {V} (vz : V) bs : forall xs e1 e2 t j, e1 t j = e2 t j -> assign vz bs xs e1 t j = assign vz bs xs e2 t j.
Proof. induction bs as [|[s i] r IH]; intros xs e1 e2 t j E; cbn; [exact E|]. destruct (_ && _); [reflexivity|now apply IH]. Qed.
Lemma nrun_same {V} (vz : V) istrue hits : forall (p : pst V) v1 v2 e1 e2, (forall t i, v1 t i = v2 t i) -> (forall t i, e1 t i = e2 t i) ->
  forall t i, nrun vz istrue hits p v1 e1 t i = nrun vz istrue hits p v2 e2 t i.
Proof.
  induction p as [|bl l r|p IHp q IHq|c t IHt|c t IHt e IHe|c its IHi|p IHp|xs p IHp r IHr] using pst_mind
    with (P0 := fun r => forall u v1 v2 e1 e2, (forall t i, v1 t i = v2 t i) -> (forall t i, e1 t i = e2 t i) -> forall t i, cnrun vz istrue hits r u v1 e1 t i = cnrun vz istrue hits r u v2 e2 t i);
    intros; cbn.
  - auto.
  - rewrite (reads_eval V vz v1 v2 r) by (intros ? ? _; auto). now apply assign_same.
  - apply IHq; auto.
  - rewrite (reads_eval V vz v1 v2 c) by (intros ? ? _; auto). destruct (istrue _); auto.
  - rewrite (reads_eval V vz v1 v2 c) by (intros ? ? _; auto). destruct (istrue _); auto.
  - rewrite (reads_eval V vz v1 v2 c) by (intros ? ? _; auto). auto.
  - auto.
  - replace (existsb (fun y => hits u (eval vz v1 y)) xs) with (existsb (fun y => hits u (eval vz v2 y)) xs); [destruct (existsb _ _); auto|].
    clear IHp IHr. induction xs as [|y l IH]; cbn; [reflexivity|]. rewrite IH. now rewrite (reads_eval V vz v1 v2 y) by (intros ? ? _; auto).
Qed.
Theorem c124_next_state_determined : forall {V} (vz : V) istrue hits rb h nm ports width conns asgs procs regs, wf_clocked vz rb h ports conns asgs procs regs ->
  forall s nl, pflow vz rb h nm ports width conns asgs (procs ++ regs) = Some (s, nl) -> getAllLoops nl = Some [] ->
  forall v1 v2, psettled vz istrue hits conns asgs procs v1 -> psettled vz istrue hits conns asgs procs v2 ->
  (forall p i, free_input ports conns p i -> v1 (fp_sy p) i = v2 (fp_sy p) i) ->
  (forall t i, S_Seq.register regs t i -> v1 t i = v2 t i) ->
  ragree_undriven ports conns asgs procs regs v1 v2 ->
  forall x t i, In x regs -> after_edge vz istrue hits x v1 t i = after_edge vz istrue hits x v2 t i.
Proof.
  intros V vz istrue hits rb h nm ports width conns asgs procs regs W s nl E NL v1 v2 S1 S2 A R U x t i _.
  pose proof (c124_values_determined vz istrue hits rb h nm ports width conns asgs procs regs W s nl E NL v1 v2 S1 S2 A R U) as Q. unfold after_edge. now apply nrun_same.
Qed.
Print Assumptions c124_next_state_determined.

(** The design of C117 with the registers [r] and [q]. *)
Example sync_values : forall v1 v2, psettled false holds matches [] [] sq_comb v1 -> psettled false holds matches [] [] sq_comb v2 ->
  (forall t i, In t [9; 10; 11; 12; 14; 15] -> v1 t i = v2 t i) -> ragree_undriven sq_ports [] [] sq_comb (clocked sq_body) v1 v2 ->
  forall t i, v1 t i = v2 t i.
Proof.
  intros v1 v2 S1 S2 A U.
  assert (B : match sq_flow sq_comb sq_body with Some (s, nl) => getAllLoops nl = Some [] | None => False end) by (vm_compute; reflexivity).
  destruct (sq_flow sq_comb sq_body) as [[s nl]|] eqn:E; [|destruct B].
  apply (c124_values_determined false holds matches true no_h (fun _ => []) sq_ports (fun _ => 1%Z) [] [] sq_comb (clocked sq_body) sq_all s nl E B v1 v2 S1 S2); auto.
  - intros p i (Ip & (lo & hi & I & K) & _). cbn in Ip. each Ip; cbn in I; destruct I as [I|[]]; try discriminate I; apply A; cbn; tauto.
  - intros t i (x & [<-|[]] & M). cbn in M. apply A. cbn. intuition congruence.
Qed.
(** assign t = y; assign y = t: the loop is reported, and there are two solutions for the
    same inputs. *)
Definition lp_asgs : list (fasg bool) := [FAsg (bits_of 14 0 0) (bits_of 15 0 0); FAsg (bits_of 15 0 0) (bits_of 14 0 0)].
Example sync_loop : match pflow false true no_h (fun _ => []) pe_ports (fun _ => 1%Z) [] lp_asgs [] with Some (s, nl) => getAllLoops nl = Some [[4; 5]] | None => False end /\
  settled false [] lp_asgs (fun _ _ => false) /\ settled false [] lp_asgs (fun t _ => (t =? 14) || (t =? 15)).
Proof. split; [vm_compute; reflexivity|]. split; (split; [|intros c []]); intros a [<-|[<-|[]]]; reflexivity. Qed.
