(** Proofs about the driver query on designs. *)
From Verif Require Import Base M_Graph M_Range M_Netlist M_DFS M_Path M_Query M_Annot M_Interval M_Heap M_Drivers M_Pending M_DFA M_Builder M_Slice M_Port M_Flow M_Proc
  S_Graph S_Reach S_Netlist S_Annot S_Pending S_Query S_Slice S_Port S_Flow S_Proc S_Prec S_Prec2 S_Total S_Drv P_Graph P_Flow8 P_Proc3 P_Prec5 P_Prec8 P_Query P_Clock.

Lemma drives_annotated nl x d i : WF nl -> (DrivesBit nl x d i <-> exists n, hasNode (ng nl) d = true /\ hasNode (ng nl) n = true /\ annotated nl d n x i).
Proof.
  intros W. unfold DrivesBit, annotated, pair_ann. split.
  - intros (e & Id & Ie & Es & Ir). destruct (mir_out _ W d e Ie) as (_ & _ & In_ & _). exists (etgt e). rewrite !hasNode_true. split; [exact Id|]. split; [exact In_|].
    exists (eatt nl (eid e)). split; [|split; [exact Es|]].
    + apply in_map_iff. exists e. split; [reflexivity|]. apply filter_In. split; [exact Ie|]. unfold to. apply Nat.eqb_refl.
    + unfold InRange, bit_in, lower, upper in *. lia.
  - intros (n & Hd & _ & y & Iy & Ey & B). apply in_map_iff in Iy. destruct Iy as (e & <- & Ie). apply filter_In in Ie. destruct Ie as [Ie _]. apply hasNode_true in Hd.
    exists e. split; [exact Hd|]. split; [exact Ie|]. split; [exact Ey|]. unfold InRange, bit_in, lower, upper in *. lia.
Qed.
Lemma reported_iff addr nl x q d i : WF nl -> (forall a b, addr a = addr b -> a = b) ->
  (reported addr nl x q d i <-> InRange i q /\ exists n, hasNode (ng nl) d = true /\ hasNode (ng nl) n = true /\ annotated nl d n x i).
Proof.
  intros W A. destruct (c19 addr nl x q W A) as (H & _). unfold reported. rewrite (H d i), (drives_annotated nl x d i W). tauto.
Qed.

Section G.
Context {V : Type}.
Variable vz : V.
Variable rb : bool.
Variable h : hints.
Variable nm : nat -> str.
Variable ports : list fport.
Variable conns : list (fconn V).
Variable asgs : list (fasg V).
Hypothesis Wf : wf_design vz rb h ports conns asgs.
Hypothesis One : one_driver ports conns asgs.
Hypothesis Npn : no_port_names ports asgs.
Hypothesis Inj : forall a b, nm a = nm b -> a = b.

Lemma drivers_exact s nl : flow vz rb h nm ports conns asgs = Some (s, nl) ->
  exists role, (stands_for vz rb ports conns asgs (bnodes (fb s)) nl role /\ exactly vz rb ports conns asgs nl role) /\
    drivers_right vz rb conns nm nl role /\ drivers_found vz rb conns nm nl role.
Proof.
  intros F. pose proof (flow_wf _ _ _ _ _ _ _ _ _ F) as W. destruct (netlist_exact vz rb h nm ports conns asgs Wf One Npn s nl F) as (role & A & B & C & D). exists role. split; [auto|]. split.
  - intros addr t q d i Ia R. apply (reported_iff addr nl (nm t) q d i W Ia) in R. destruct R as (Iq & n & Hd & Hn & An). split; [exact Iq|].
    destruct (C d n (nm t) i An) as (t' & j & Et & -> & P). apply Inj in Et. subst t'. exists j, n. auto.
  - intros addr t q d n j Ia Hd Hn P Un Wn Iq. apply (reported_iff addr nl (nm t) q d _ W Ia). split; [exact Iq|]. exists n. split; [exact Hd|]. split; [exact Hn|].
    refine (D d n (nm t) Hd Hn _ Wn t j P). intros t' j' P'. now rewrite (Un t' j' P').
Qed.

Lemma driver_one s nl : rb = true -> flow vz rb h nm ports conns asgs = Some (s, nl) ->
  one_reported nl /\ exists role, stands_for vz rb ports conns asgs (bnodes (fb s)) nl role /\ written_once rb conns nl role.
Proof.
  intros Rb F. pose proof (flow_wf _ _ _ _ _ _ _ _ _ F) as W. destruct (netlist_exact_one vz rb h nm ports conns asgs Wf One Npn s nl F) as (role & Ow & A & _ & C & _). split; [|exists role; split; [exact A|exact (Ow Rb)]].
  intros addr x q q' d d' i Ia R R'. apply (reported_iff addr nl x q d i W Ia) in R. apply (reported_iff addr nl x q' d' i W Ia) in R'.
  destruct R as (_ & n & Hd & _ & An). destruct R' as (_ & n' & Hd' & _ & An').
  destruct (C d n x i An) as (t & j & Et & Ej & P). destruct (C d' n' x i An') as (t' & j' & Et' & Ej' & P'). assert (t' = t) by (apply Inj; congruence). assert (j' = j) by lia. subst t' j'.
  exact (Ow Rb d d' t j Hd Hd' (proj1 P) (proj1 P')).
Qed.

Variable width : nat -> Z.
Variable procs : list (fproc V).
Hypothesis Ap : blocks_apart vz rb h ports conns asgs procs.
Hypothesis Wd : forall s, (0 <= width s)%Z.
Lemma pdrivers s nl : pflow vz rb h nm ports width conns asgs procs = Some (s, nl) ->
  exists role, pieces vz rb width ports conns asgs procs (bnodes (fb s)) nl role /\ pdrivers_right rb conns nm nl role.
Proof.
  intros F. pose proof (pflow_wf _ _ _ _ _ _ _ _ _ _ _ F) as W. destruct (pieces_sound vz rb h nm width ports conns asgs procs Wf One Npn Ap Wd s nl F) as (role & P & C). exists role. split; [exact P|].
  intros addr t q d i Ia R. apply (reported_iff addr nl (nm t) q d i W Ia) in R. destruct R as (Iq & n & Hd & Hn & An). split; [exact Iq|].
  destruct (C d n (nm t) i An) as (t' & j & Et & -> & Q). apply Inj in Et. subst t'. exists j. split; [reflexivity|]. split; [exact Hd|].
  destruct Q as [[Q _]|[(x & E & _ & Q)|(x & lo & hi & E1 & E2 & L)]]; [now left|right; eauto|]. right. exists x. split; [exact E1|]. right.
  pose proof (pi_valid _ _ _ _ _ _ _ _ _ _ P n Hn) as Vn. rewrite E2 in Vn. destruct Vn as (_ & _ & _ & M). now apply M.
Qed.
End G.
