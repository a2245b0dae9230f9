(** C127: designs built with parallel resolution of the pending R-values. *)
From Verif Require Import Base M_Graph M_Range M_Netlist M_DFS M_Path M_Cycle M_Annot M_Interval M_Heap M_Drivers M_Pending M_DFA M_Builder M_Slice M_Port M_Flow M_Proc
  S_Graph S_Reach S_Netlist S_Annot S_DFA S_Slice S_Port S_Flow S_Proc S_Seq S_Pending S_Par P_Flow5 P_Flow6 P_Flow8 P_Proc3 P_Seq3 P_Par
  Properties_Path Properties_Flow Properties_Proc Properties_Seq Properties_Sync.

(** Whatever the schedule of the threads, the order that std::sort gives to items of one
    node and the addresses of the nodes: the netlist has the nodes and the connections of
    the netlist that sequential resolution makes. *)
Theorem c127_same_connections : forall {V} (vz : V) rb h nm ports width conns asgs procs s nl nl',
  pflow vz rb h nm ports width conns asgs procs = Some (s, nl) -> resolved_in_parallel s nl' ->
  WF nl' /\ same_connections nl' nl.
Proof.
  intros V vz rb h nm ports width conns asgs procs s nl nl' E P. unfold pflow in E.
  destruct (pflow_state _ _ _ _ _ _ _ _ _) as [s'|]; [|discriminate]. destruct (emit_all (bvt (fb s')) (bdm (fb s')) (bpend (fb s'))) as [ds|] eqn:Em; [|discriminate].
  destruct (drun (empty_netlist s') (bdeps (fb s') ++ ds)) as [n|] eqn:Dn; [|discriminate]. injection E as <- <-.
  exact (par_connections _ _ _ _ Em Dn P).
Qed.
Print Assumptions c127_same_connections.

(** So the queries give the same answers: the same nodes in the cones, a path or no path, a
    loop or no loop, the same nodes on loops. *)
Theorem c127_same_answers : forall {V} (vz : V) rb h nm ports width conns asgs procs s nl nl',
  pflow vz rb h nm ports width conns asgs procs = Some (s, nl) -> resolved_in_parallel s nl' ->
  (forall n, In n (gnodes (ng nl')) ->
     (exists l l', getCombFanIn nl' n = Some l' /\ getCombFanIn nl n = Some l /\ same_set l' l) /\
     (exists l l', getCombFanOut nl' n = Some l' /\ getCombFanOut nl n = Some l /\ same_set l' l)) /\
  (forall a b, In a (gnodes (ng nl')) -> In b (gnodes (ng nl')) ->
     (exists p p', pf_find nl' a b = PPath p' /\ pf_find nl a b = PPath p /\ (p' = [] <-> p = [])) /\
     (exists p p', pf_findComb nl' a b = PPath p' /\ pf_findComb nl a b = PPath p /\ (p' = [] <-> p = []))) /\
  (exists ls ls', getAllLoops nl' = Some ls' /\ getAllLoops nl = Some ls /\ (ls' = [] <-> ls = []) /\ same_set (concat ls') (concat ls)).
Proof.
  intros V vz rb h nm ports width conns asgs procs s nl nl' E P.
  destruct (c127_same_connections vz rb h nm ports width conns asgs procs s nl nl' E P) as [W' SC].
  pose proof (pflow_wf _ _ _ _ _ _ _ _ _ _ _ E) as W. split; [|split].
  - intros n I. split; [destruct (same_fanin nl' nl W' W SC n I) as (l & l' & X)|destruct (same_fanout nl' nl W' W SC n I) as (l & l' & X)]; exists l', l; exact X.
  - intros a b I J. split; [destruct (same_path nl' nl W' W SC a b I J) as (l & l' & X)|destruct (same_comb_path nl' nl W' W SC a b I J) as (l & l' & X)]; exists l', l; exact X.
  - destruct (same_loops nl' nl W' W SC) as (l & l' & X). exists l', l. exact X.
Qed.
Print Assumptions c127_same_answers.

(** C117 for the netlist that the threads leave behind. *)
Theorem c127_output : forall {V} (vz : V) istrue hits rb h nm ports width conns asgs procs regs, wf_clocked vz rb h ports conns asgs procs regs ->
  forall s nl0 nl q n lo hi cone,
  pflow vz rb h nm ports width conns asgs (procs ++ regs) = Some (s, nl0) -> resolved_in_parallel s nl ->
  In q ports -> In (n, BPort (fp_id q) (zrange lo hi)) (bnodes (fb s)) -> In n (gnodes (ng nl)) ->
  getCombFanIn nl n = Some cone -> (forall m, In m cone -> ~ Reach1 (CombBack nl) m m) -> reads_whole regs s cone ->
  forall v1 v2, psettled vz istrue hits conns asgs procs v1 -> psettled vz istrue hits conns asgs procs v2 -> ragree_undriven ports conns asgs procs regs v1 v2 ->
  inputs_agree ports conns s cone v1 v2 -> feeders_agree s nl cone v1 v2 ->
  forall i, lo <= i <= hi -> v1 (fp_sy q) i = v2 (fp_sy q) i.
Proof.
  intros V vz istrue hits rb h nm ports width conns asgs procs regs W s nl0 nl q n lo hi cone E P Iq In_ Ig C Ac Rw v1 v2 S1 S2 U A Fa.
  destruct (c127_same_connections vz rb h nm ports width conns asgs _ s nl0 nl E P) as [Wf SC].
  destruct (same_fanin nl nl0 Wf (pflow_wf _ _ _ _ _ _ _ _ _ _ _ E) SC n Ig) as (l & c0 & C1 & C0 & Ss). rewrite C in C1. injection C1 as <-.
  apply (c117_output vz istrue hits rb h nm ports width conns asgs procs regs W s nl0 q n lo hi c0 E Iq In_ C0); auto.
  - intros m I Q. apply Ss in I. apply (Ac m I). revert Q. apply (reach1_iff (same_back nl nl0 SC)).
  - intros p m Ip Pn I. apply Ss in I. exact (Rw p m Ip Pn I).
  - intros p m a c i Fi I. apply Ss in I. exact (A p m a c i Fi I).
  - intros n' t w m j I' I Cn. apply Ss in I. apply (proj2 (proj2 SC)) in Cn. exact (Fa n' t w m j I' I Cn).
Qed.
Print Assumptions c127_output.
Theorem c127_register : forall {V} (vz : V) istrue hits rb h nm ports width conns asgs procs regs, wf_clocked vz rb h ports conns asgs procs regs ->
  forall s nl0 nl x n t w cone,
  pflow vz rb h nm ports width conns asgs (procs ++ regs) = Some (s, nl0) -> resolved_in_parallel s nl ->
  In x regs -> In (n, BState t w) (bnodes (fb s)) -> In n (gnodes (ng nl)) ->
  getCombFanIn nl n = Some cone -> (forall m, In m cone -> ~ Reach1 (CombBack nl) m m) -> reads_whole regs s cone ->
  forall v1 v2, psettled vz istrue hits conns asgs procs v1 -> psettled vz istrue hits conns asgs procs v2 -> ragree_undriven ports conns asgs procs regs v1 v2 ->
  inputs_agree ports conns s cone v1 v2 -> feeders_agree s nl cone v1 v2 ->
  forall j, bit w (Z.of_nat j) -> may (pr_body x) t j -> v1 t j = v2 t j -> after_edge vz istrue hits x v1 t j = after_edge vz istrue hits x v2 t j.
Proof.
  intros V vz istrue hits rb h nm ports width conns asgs procs regs W s nl0 nl x n t w cone E P Ix In_ Ig C Ac Rw v1 v2 S1 S2 U A Fa.
  destruct (c127_same_connections vz rb h nm ports width conns asgs _ s nl0 nl E P) as [Wf SC].
  destruct (same_fanin nl nl0 Wf (pflow_wf _ _ _ _ _ _ _ _ _ _ _ E) SC n Ig) as (l & c0 & C1 & C0 & Ss). rewrite C in C1. injection C1 as <-.
  apply (c117_register vz istrue hits rb h nm ports width conns asgs procs regs W s nl0 x n t w c0 E Ix In_ C0); auto.
  - intros m I Q. apply Ss in I. apply (Ac m I). revert Q. apply (reach1_iff (same_back nl nl0 SC)).
  - intros p m Ip Pn I. apply Ss in I. exact (Rw p m Ip Pn I).
  - intros p m a c i Fi I. apply Ss in I. exact (A p m a c i Fi I).
  - intros n' t' w' m j I' I Cn. apply Ss in I. apply (proj2 (proj2 SC)) in Cn. exact (Fa n' t' w' m j I' I Cn).
Qed.
Print Assumptions c127_register.

(** C124 for it: no loop reported there, and the design has one solution. *)
Theorem c127_values_determined : forall {V} (vz : V) istrue hits rb h nm ports width conns asgs procs regs, wf_clocked vz rb h ports conns asgs procs regs ->
  forall s nl0 nl, pflow vz rb h nm ports width conns asgs (procs ++ regs) = Some (s, nl0) -> resolved_in_parallel s nl -> getAllLoops nl = Some [] ->
  forall v1 v2, psettled vz istrue hits conns asgs procs v1 -> psettled vz istrue hits conns asgs procs v2 ->
  (forall p i, free_input ports conns p i -> v1 (fp_sy p) i = v2 (fp_sy p) i) ->
  (forall t i, S_Seq.register regs t i -> v1 t i = v2 t i) ->
  ragree_undriven ports conns asgs procs regs v1 v2 ->
  (forall t i, v1 t i = v2 t i) /\
  forall x t i, In x regs -> after_edge vz istrue hits x v1 t i = after_edge vz istrue hits x v2 t i.
Proof.
  intros V vz istrue hits rb h nm ports width conns asgs procs regs W s nl0 nl E P L v1 v2 S1 S2 A R U.
  destruct (c127_same_connections vz rb h nm ports width conns asgs _ s nl0 nl E P) as [Wf SC].
  destruct (same_loops nl nl0 Wf (pflow_wf _ _ _ _ _ _ _ _ _ _ _ E) SC) as (ls & ls' & L1 & L2 & Em & _). rewrite L in L1. injection L1 as <-.
  rewrite (proj1 Em eq_refl) in L2. split.
  - exact (c124_values_determined vz istrue hits rb h nm ports width conns asgs procs regs W s nl0 E L2 v1 v2 S1 S2 A R U).
  - exact (c124_next_state_determined vz istrue hits rb h nm ports width conns asgs procs regs W s nl0 E L2 v1 v2 S1 S2 A R U).
Qed.
Print Assumptions c127_values_determined.

(** The design of C117 with three threads, the addresses of the nodes descending. *)
Definition sq_built : option fl := match sq_flow sq_comb sq_body with Some (s, _) => Some s | None => None end.
Definition desc (n : nat) : nat := if n <=? 20 then 20 - n else n.
Definition two_each (q : list pend) : list (list (list pend)) :=
  match runs q with [a; b; c; d; e; f] => [[a; b]; [c; d]; [e; f]] | _ => [] end.
Definition progs_of (s : fl) (t : nat) : list dep :=
  if t <? 3 then match emit_all (bvt (fb s)) (bdm (fb s)) (concat (nth t (two_each (rev (bpend (fb s)))) [])) with DOk l => l | DErr _ => [] end else [].
Definition sq_sched : list nat := [2; 0; 1; 0; 2; 1; 1; 0; 2; 2; 0; 1].
Definition sq_par (s : fl) : option rstate :=
  match drun (empty_netlist s) (bdeps (fb s)) with Some nl0 => rexec sq_sched (rinit nl0 (progs_of s)) | None => None end.
Lemma desc_inj a b : desc a = desc b -> a = b.
Proof. unfold desc. destruct (Nat.leb_spec a 20), (Nat.leb_spec b 20); lia. Qed.
Example c127_ex : exists s nl st, sq_flow sq_comb sq_body = Some (s, nl) /\ sq_par s = Some st /\ resolved_in_parallel s (rnl st) /\
  getAllLoops (rnl st) = Some [] /\ getCombFanIn (rnl st) 10 = Some [10; 7; 6; 2; 0; 4] /\
  outs (nst (ng (rnl st)) 4) <> outs (nst (ng nl) 4).
Proof.
  assert (T : match sq_flow sq_comb sq_body with
    | Some (s, nl) => match drun (empty_netlist s) (bdeps (fb s)), sq_par s with
        | Some nl0, Some st => getAllLoops (rnl st) = Some [] /\ getCombFanIn (rnl st) 10 = Some [10; 7; 6; 2; 0; 4] /\
            (forall t, fst (rth st t) = []) /\
            rexec sq_sched (rinit nl0 (progs_of s)) = Some st /\ concat (two_each (rev (bpend (fb s)))) = runs (rev (bpend (fb s))) /\
            map pnode (rev (bpend (fb s))) = map Some [11; 10; 9; 7; 6; 5] /\
            (forall t, t < 3 -> emit_all (bvt (fb s)) (bdm (fb s)) (concat (nth t (two_each (rev (bpend (fb s)))) [])) = DOk (progs_of s t)) /\
            length (two_each (rev (bpend (fb s)))) = 3 /\
            map etgt (outs (nst (ng (rnl st)) 4)) = [11; 10] /\ map etgt (outs (nst (ng nl) 4)) = [10; 11]
        | _, _ => False
        end
    | None => False
    end).
  { vm_compute. repeat (split; [first [reflexivity|intros [|[|[|t]]]; reflexivity|intros [|[|[|t]]] L; [reflexivity..|lia]]|]). reflexivity. }
  destruct (sq_flow sq_comb sq_body) as [[s nl]|]; [|destruct T].
  destruct (drun (empty_netlist s) (bdeps (fb s))) as [nl0|] eqn:D; [|destruct T].
  destruct (sq_par s) as [st|] eqn:Sp; [|destruct T]. destruct T as (T1 & T2 & T3 & T4 & T5 & T6 & T7 & T8 & T9 & T10).
  assert (Pt : forall t, 3 <= t -> progs_of s t = []).
  { intros t L. unfold progs_of. destruct (Nat.ltb_spec t 3); [lia|reflexivity]. }
  exists s, nl, st. split; [reflexivity|]. split; [exact Sp|]. split; [|split; [exact T1|]; split; [exact T2|intros Q; rewrite Q, T10 in T9; discriminate]].
  exists nl0, desc, (rev (bpend (fb s))), (two_each (rev (bpend (fb s)))), (progs_of s), sq_sched, st.
  split; [exact desc_inj|]. split; [exact D|]. split; [|split; [exact T4|]; split; [|reflexivity]].
  - constructor.
    + apply Permutation_rev.
    + clear -T6. destruct (rev (bpend (fb s))) as [|p0 [|p1 [|p2 [|p3 [|p4 [|p5 [|p6 l]]]]]]]; try discriminate T6. cbn in T6. injection T6 as A0 A1 A2 A3 A4 A5.
      unfold node_le. repeat constructor; rewrite ?A0, ?A1, ?A2, ?A3, ?A4, ?A5; cbn; lia.
    + exact T5.
    + intros t. destruct (le_lt_dec 3 t) as [L|L]; [|exact (T7 t L)]. rewrite (Pt t L). rewrite nth_overflow by lia. reflexivity.
  - exact T3.
Qed.
