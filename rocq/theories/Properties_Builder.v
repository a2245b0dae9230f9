(** Properties C51, C52, C56, C65, C76: sensitivity, output ports, registers, interfaces. *)
From Coq Require Import String.
From Verif Require Import Base M_Graph M_Range M_Netlist M_Annot M_Interval M_Heap M_Drivers M_Pending M_DFA M_Builder
  S_Interval S_Drivers S_DFA S_Builder P_Interval P_Heap P_Drivers P_DriversX P_DFA P_DFA2 P_Builder.
Notation length := List.length.
Local Open Scope Z_scope.

Definition nmb (n : nat) : str := lit "s".
Definition other (n : nat) : skind := SkOther.
Definition nopaths (a b : nat) : list ipath := [].

(** * C51: a block is clocked iff its timing control consists only of edge events, and then
    the result lists the signals with their edges. *)
Definition Full_c51 : Prop := forall pk t l, always pk -> is_events t l ->
  exists out, collectSensitivity pk (BTimed t) = Some out /\ (out <> [] <-> edge_triggered l) /\
    (edge_triggered l -> forall s k, In (s, k) out <-> In (k, Some s) l).

(** False: [always_ff @(posedge clk[0])] is not clocked, because its event does not name a
    symbol. *)
Theorem c51_select_refuted : ~ Full_c51.
Proof.
  intros H. destruct (H PAlwaysFF (TSignal EKPos None) [(EKPos, None)] (or_introl eq_refl) (ev_signal _ _))
    as (out & E & Q & _).
  cbn in E. injection E as <-. apply Q; [|reflexivity]. split; [discriminate|].
  intros e [<-|[]]. discriminate.
Qed.
Print Assumptions c51_select_refuted.

(** The exact result for every list of signal events. *)
Theorem c51_exact : forall pk t l, always pk -> is_events t l ->
  exists out, collectSensitivity pk (BTimed t) = Some out /\
    ((forall e, In e l -> edge_event e) ->
       out = flat_map (fun e => match snd e with Some s => [(s, fst e)] | None => [] end) l) /\
    ((exists e, In e l /\ ~ edge_event e) -> out = []).
Proof.
  intros pk t l P E. destruct (sensitivity_spec pk t l P E) as (out & H & H1 & H2). exists out.
  split; [exact H|]. split; [exact H1|]. intros (e & I & N). apply H2. intros Q. apply N, Q, I.
Qed.
Print Assumptions c51_exact.

(** What holds: the claim for timing controls whose events all name symbols. *)
Theorem c51_symbols_partial : forall pk t l, always pk -> is_events t l -> (forall k, ~ In (k, None) l) ->
  exists out, collectSensitivity pk (BTimed t) = Some out /\ (out <> [] <-> edge_triggered l) /\
    (edge_triggered l -> forall s k, In (s, k) out <-> In (k, Some s) l).
Proof.
  intros pk t l P E N. destruct (sensitivity_spec pk t l P E) as (out & H & H1 & H2). exists out. split; [exact H|].
  assert (S : forall s k, In (s, k) (flat_map sig_of l) <-> In (k, Some s) l).
  { intros s k. rewrite in_flat_map. split.
    - intros ([k' [s'|]] & I & J); [|destruct J]. destruct J as [[= <- <-]|[]]. exact I.
    - intros I. exists (k, Some s). split; [exact I|now left]. }
  split.
  - split.
    + intros Ne. assert (A : forall e, In e l -> edge_event e).
      { intros e I. destruct (edgekind_eqb (fst e) EKNone) eqn:K; [|intros Q; apply ek_none in Q; congruence].
        exfalso. apply Ne, H2. intros Q. apply (Q e I). now apply ek_none. }
      split; [|exact A]. intros ->. apply Ne. now rewrite (H1 A).
    + intros [L A] Q. rewrite (H1 A) in Q. destruct l as [|[k [s|]] l]; [now apply L|discriminate|].
      apply (N k). now left.
  - intros [_ A] s k. rewrite (H1 A). apply S.
Qed.
Print Assumptions c51_symbols_partial.

(** Other processes, untimed bodies and other timing controls are combinational. *)
Theorem c51_combinational : forall pk b, pk = POther \/ b = BAssertion \/ b = BUntimed \/ b = BTimed TOther ->
  collectSensitivity pk b = Some [].
Proof. intros pk b [->|[->|[->| ->]]]; [reflexivity| | |]; destruct pk; reflexivity. Qed.
Print Assumptions c51_combinational.

(** [always_ff @(posedge clk or negedge rst)] and [always @(posedge clk or en)]. *)
Example c51_ex1 : collectSensitivity PAlwaysFF (BTimed (TList [EvSignal EKPos (Some 1); EvSignal EKNeg (Some 2)]%nat)) =
  Some [(1, EKPos); (2, EKNeg)]%nat.
Proof. reflexivity. Qed.
Example c51_ex2 : collectSensitivity PAlways (BTimed (TList [EvSignal EKPos (Some 1); EvSignal EKNone (Some 2)]%nat)) = Some [].
Proof. reflexivity. Qed.

(** * C52: every driven bit of an output port's symbol gets an edge to the port node that
    carries the bit.  [ops]: the port nodes, [p] the port, [sy] its internal symbol. *)
Definition Full_c52 : Prop := forall nm backrefs ops sy p b dl d n b' i,
  backrefs sy = [p] -> apart_nodes ops -> rleft b <= rright b -> In d dl -> In (p, b', n) ops -> bit b i -> bit b' i ->
  hooked (hookupOutputPort nm backrefs (vt_run vt_empty ops) sy b dl) d n (nm sy) i.

(** False: a driver whose range spans two port nodes is hooked to none of them. *)
Theorem c52_spanning_refuted : ~ Full_c52.
Proof.
  intros H. destruct (H nmb (fun _ => [9%nat]) [(9, Range 0 3, 1); (9, Range 4 7, 2)]%nat 0%nat 9%nat (Range 0 7)
    [5%nat] 5%nat 1%nat (Range 0 3) 0) as (b & I & _); try reflexivity; try (now left); try (cbn; lia).
  - intros p s b n q b' n' r E i [B1 B2]. destruct p as [|o p]; cbn [app] in E; injection E.
    + intros E' _ <- _. destruct q as [|o' q]; cbn [app] in E'; injection E'.
      * intros _ _ <- _. unfold bit in *. cbn in *. lia.
      * intros Q _. destruct q; discriminate.
    + intros E' _. destruct p as [|o' p]; cbn [app] in E'; injection E'.
      * intros Q _ _ _. destruct q; discriminate.
      * intros Q _. destruct p; discriminate.
  - unfold bit. cbn. lia.
  - unfold bit. cbn. lia.
  - vm_compute in I. exact I.
Qed.
Print Assumptions c52_spanning_refuted.

(** Exactly: the drivers are hooked to the port node whose bits include the whole range. *)
Theorem c52_hookup_exact : forall nm backrefs ops sy p b dl, backrefs sy = [p] -> apart_nodes ops -> rleft b <= rright b ->
  forall x, In x (hookupOutputPort nm backrefs (vt_run vt_empty ops) sy b dl) <->
    exists d n b', x = DDep d n (Some (nm sy)) b EKNone /\ In d dl /\ In (p, b', n) ops /\ forall i, bit b i -> bit b' i.
Proof. intros nm backrefs. exact (hookup_exact other nm backrefs (fun _ => 0) nopaths). Qed.
Print Assumptions c52_hookup_exact.

(** So the claim holds for ranges that lie within one port node. *)
Theorem c52_hooked_partial : forall nm backrefs ops sy p b dl d n b' i,
  backrefs sy = [p] -> apart_nodes ops -> rleft b <= rright b -> In d dl -> In (p, b', n) ops -> bit b i -> bit b' i ->
  (forall j, bit b j -> bit b' j) ->
  hooked (hookupOutputPort nm backrefs (vt_run vt_empty ops) sy b dl) d n (nm sy) i.
Proof.
  intros nm backrefs ops sy p b dl d n b' i P D A Id In' Bi Bi' H. exists b. split; [|exact Bi].
  apply (hookup_exact other nm backrefs (fun _ => 0) nopaths ops sy p b dl P D A). exists d, n, b'. auto.
Qed.
Print Assumptions c52_hooked_partial.

(** Symbols without port, or with several, are not hooked. *)
Theorem c52_no_single_port : forall nm backrefs vt sy b dl, length (backrefs sy) <> 1%nat ->
  hookupOutputPort nm backrefs vt sy b dl = [].
Proof. intros nm backrefs vt sy b dl H. unfold hookupOutputPort. destruct (backrefs sy) as [|p [|q l]]; cbn in *; congruence. Qed.
Print Assumptions c52_no_single_port.

Example c52_ex : hookupOutputPort nmb (fun _ => [9%nat]) (vt_run vt_empty [(9, Range 0 3, 1); (9, Range 4 7, 2)]%nat) 0%nat
  (Range 5 6) [5; 6]%nat =
  [DDep 5 2 (Some (lit "s")) (Range 5 6) EKNone; DDep 6 2 (Some (lit "s")) (Range 5 6) EKNone].
Proof. vm_compute. reflexivity. Qed.

(** * C56: a clocked block makes one register per driven range, with an edge from every
    driver and every clock; readers see the register.  A combinational block hands its
    drivers to the central map. *)

(** The registers. *)
Theorem c56_registers : forall sykind nm backrefs width behind sens s blk, sens <> [] ->
  (forall sy d, In (sy, d) blk -> built d) ->
  exists s' new, mergeDrivers sykind nm backrefs width behind sens s blk = DOk s' /\
    (* one new node per driven range, in order *)
    bnodes s' = bnodes s ++ new /\
    map snd new = flat_map (fun sd => map (fun x => BState (fst sd) (Range (ilo x) (ihi x))) (ivs (snd sd))) blk /\
    map fst new = seq (bnext s) (length new) /\
    (* with all data edges and all clocks *)
    (forall sy d x, In (sy, d) blk -> In x (ivs d) -> exists n, In (n, BState sy (Range (ilo x) (ihi x))) new /\
       (forall k l, get (lists d) (ival x) = Some l -> In k l ->
          In (DDep k n (Some (nm sy)) (Range (ilo x) (ihi x)) EKNone) (bdeps s')) /\
       (forall c e, In (c, e) sens -> width c <> 0 ->
          In (Pend c (nm c) (Range 0 (width c - 1)) (Some n) e) (bpend s'))) /\
    (* and the central map is untouched *)
    bdm s' = bdm s.
Proof.
  intros sykind nm backrefs width behind sens s blk Ne B.
  rewrite seq_drivers; [|exact Ne|intros sy d I; apply built_ok; eapply B; eauto].
  destruct (fold_fields sykind nm backrefs width behind sens (entries blk) s) as (F1 & F2 & F3 & F4 & _ & _ & F7).
  set (s' := fold_left _ (entries blk) s) in *.
  eexists _, _. split; [reflexivity|]. split; [exact F2|].
  assert (L : length (state_ops (bnext s) (entries blk)) = length (entries blk)).
  { generalize (bnext s). clear. induction (entries blk) as [|[[sy b] dl] es IH]; intros n; cbn; [reflexivity|]. now rewrite IH. }
  split; [|split; [|split; [|exact F4]]].
  - rewrite map_map. cbn [snd].
    transitivity (map (fun e : entry => BState (fst (fst e)) (snd (fst e))) (entries blk)).
    + generalize (bnext s). clear. induction (entries blk) as [|[[sy b] dl] es IH]; intros n; cbn; [reflexivity|]. now rewrite IH.
    + clear. unfold entries. induction blk as [|[sy d] r IH]; cbn [flat_map fst snd]; [reflexivity|].
      rewrite map_app, map_map. cbn [fst snd]. f_equal. exact IH.
  - rewrite map_length, map_map, L. cbn [fst].
    generalize (bnext s). clear. induction (entries blk) as [|[[sy b] dl] es IH]; intros n; cbn; [reflexivity|]. now rewrite IH.
  - intros sy d x I Ix.
    assert (J : In (sy, Range (ilo x) (ihi x), listed d x) (entries blk)).
    { unfold entries. apply in_flat_map. exists (sy, d). split; [exact I|]. cbn [fst snd]. apply in_map_iff. eauto. }
    apply in_split in J. destruct J as (pre & post & J). destruct (F7 _ _ _ _ _ J) as [H1 H2].
    exists (bnext s + length pre)%nat. split; [|split].
    + apply in_map_iff. eexists. split; [|eapply (state_ops_nth other nm backrefs width behind); exact J]. reflexivity.
    + intros k l G Ik. apply H1. unfold listed. now rewrite G.
    + intros c e Ic W. apply H2. unfold clocks. apply in_flat_map. exists (c, e). split; [exact Ic|]. cbn [fst snd].
      destruct (Z.eqb_spec (width c) 0); [congruence|now left].
Qed.
Print Assumptions c56_registers.

(** A reader of exactly the range of a register sees the register and nothing else. *)
Theorem c56_reader_partial : forall sykind nm backrefs width behind sens s blk s', sens <> [] ->
  NoDup (map fst blk) -> (forall sy d, In (sy, d) blk -> built d /\ bvt s sy = None) ->
  mergeDrivers sykind nm backrefs width behind sens s blk = DOk s' ->
  forall sy d x t e k, In (sy, d) blk -> In x (ivs d) ->
    exists n, In (n, BState sy (Range (ilo x) (ihi x))) (bnodes s') /\
      emitEdgesFor (bvt s') (bdm s') (Pend sy e (Range (ilo x) (ihi x)) (Some t) k) =
      DOk [DDep n t (Some e) (Range (ilo x) (ihi x)) k].
Proof.
  intros sykind nm backrefs width behind sens s blk s' Ne N B E sy d x t e k I Ix.
  rewrite seq_drivers in E; [|exact Ne|intros sy' d' I'; apply built_ok; eapply B; eauto]. injection E as <-.
  destruct (fold_fields sykind nm backrefs width behind sens (entries blk) s) as (F1 & F2 & F3 & F4 & _).
  set (s' := fold_left _ (entries blk) s) in *.
  assert (W : forall s0 d0, In (s0, d0) blk -> wf (ivs d0)).
  { intros s0 d0 I0. destruct (built_ok d0 (proj1 (B s0 d0 I0))) as [[W _] _]. exact W. }
  assert (J : In (sy, Range (ilo x) (ihi x), listed d x) (entries blk)).
  { unfold entries. apply in_flat_map. exists (sy, d). split; [exact I|]. cbn [fst snd]. apply in_map_iff. eauto. }
  assert (Lx : ilo x <= ihi x) by (pose proof (W sy d I) as Wd; apply wf_spec in Wd; now apply Wd).
  apply in_split in J. destruct J as (pre & post & J).
  pose proof (state_ops_nth other nm backrefs width behind _ (bnext s) _ _ _ _ _ J) as O.
  exists (bnext s + length pre)%nat. split.
  - rewrite F2. apply in_or_app. right. apply in_map_iff. eexists. split; [|exact O]. reflexivity.
  - unfold emitEdgesFor. cbn [pnode psym pbounds pref pkind].
    assert (Lk : vt_lookup (bvt s') sy (Range (ilo x) (ihi x)) = Some (bnext s + length pre)%nat).
    { rewrite F3. rewrite (lookup_ext _ (vt_run vt_empty (state_ops (bnext s) (entries blk)))).
      - apply lookup_history; [now apply (states_apart other nm backrefs width behind)|exact Lx|]. exists (Range (ilo x) (ihi x)).
        split; [exact O|]. rewrite lower_range, upper_range by exact Lx. auto.
      - apply vt_run_fresh. now apply (B sy d I). }
    now rewrite Lk.
Qed.
Print Assumptions c56_reader_partial.

(** But "the register becomes the driver seen by readers" is false: nothing is recorded
    in the central map, so a reader of any other range sees nothing at all.  Here [q[3:0]]
    (symbol 0) is a register and [q[0]] is read. *)
Theorem c56_select_refuted : exists d s',
  run_calls dm_empty [(Range 0 3, [5%nat], false)] = DOk d /\
  mergeDrivers other nmb (fun _ => []) (fun _ => 1) nopaths [(1%nat, EKPos)] (Bld 6 [] vt_empty (fun _ => None) [] []) [(0%nat, d)] = DOk s' /\
  bnodes s' = [(6%nat, BState 0 (Range 0 3))] /\
  emitEdgesFor (bvt s') (bdm s') (Pend 0 (lit "q") (Range 0 0) (Some 9%nat) EKNone) = DOk [].
Proof. eexists _, _. split; [vm_compute; reflexivity|]. split; [vm_compute; reflexivity|]. split; reflexivity. Qed.
Print Assumptions c56_select_refuted.

(** In general: a reader whose range is not that of a register gets no edge, unless the
    symbol has drivers from elsewhere. *)
Theorem c56_other_ranges_refuted : forall sykind nm backrefs width behind sens s blk s' sy b t e k, sens <> [] ->
  NoDup (map fst blk) -> (forall sy d, In (sy, d) blk -> built d /\ bvt s sy = None) ->
  mergeDrivers sykind nm backrefs width behind sens s blk = DOk s' ->
  bvt s sy = None -> bdm s sy = None -> rleft b <= rright b ->
  (forall d x, In (sy, d) blk -> In x (ivs d) -> b <> Range (ilo x) (ihi x)) ->
  emitEdgesFor (bvt s') (bdm s') (Pend sy e b (Some t) k) = DOk [].
Proof.
  intros sykind nm backrefs width behind sens s blk s' sy b t e k Ne N B E Vs Ds A H.
  rewrite seq_drivers in E; [|exact Ne|intros sy' d' I'; apply built_ok; eapply B; eauto]. injection E as <-.
  destruct (fold_fields sykind nm backrefs width behind sens (entries blk) s) as (F1 & F2 & F3 & F4 & _).
  set (s' := fold_left _ (entries blk) s) in *.
  assert (W : forall s0 d0, In (s0, d0) blk -> wf (ivs d0)).
  { intros s0 d0 I0. destruct (built_ok d0 (proj1 (B s0 d0 I0))) as [[W _] _]. exact W. }
  unfold emitEdgesFor. cbn [pnode psym pbounds pref pkind]. rewrite F4, Ds.
  destruct (vt_lookup (bvt s') sy b) as [n|] eqn:Lk; [|reflexivity]. exfalso.
  rewrite F3 in Lk. rewrite (lookup_ext _ (vt_run vt_empty (state_ops (bnext s) (entries blk)))) in Lk by now apply vt_run_fresh.
  apply lookup_history in Lk; [|now apply (states_apart other nm backrefs width behind)|exact A]. destruct Lk as (b' & I & L & U).
  apply state_ops_in in I. destruct I as (dl & I). apply entries_sym in I. destruct I as (d & x & I & Ix & -> & _).
  apply (H d x I Ix). pose proof (W sy d I) as Wd. apply wf_spec in Wd. pose proof (proj1 Wd x Ix).
  rewrite lower_range in L by lia. rewrite upper_range in U by lia. destruct b. cbn in *. congruence.
Qed.
Print Assumptions c56_other_ranges_refuted.

(** A combinational block: no node is made, no driver is lost, and every driver of every
    bit becomes a driver in the central map. *)
Theorem c56_combinational : forall sykind nm backrefs width behind s blk,
  (forall sy d, bdm s sy = Some d -> built d) -> (forall sy d, In (sy, d) blk -> built d) ->
  exists s', mergeDrivers sykind nm backrefs width behind [] s blk = DOk s' /\ bnodes s' = bnodes s /\ bvt s' = bvt s /\
    (forall sy i n, drives_global (bdm s) sy i n -> drives_global (bdm s') sy i n) /\
    (forall sy d i n, In (sy, d) blk -> drives d i n -> drives_global (bdm s') sy i n) /\
    (forall sy, ~ In sy (map fst blk) -> bdm s' sy = bdm s sy).
Proof.
  intros sykind nm backrefs width behind s blk G B.
  destruct (comb_drivers sykind nm backrefs width behind blk s) as (s' & E & _ & _ & H2 & H3 & _ & _ & H6 & H7 & H8).
  - intros sy d E. apply built_ok. eapply G; eauto.
  - intros sy d I. apply built_ok. eapply B; eauto.
  - exists s'. auto 8.
Qed.
Print Assumptions c56_combinational.

Example c56_ex : exists d s',
  run_calls dm_empty [(Range 0 3, [5%nat], false); (Range 4 7, [6%nat], false)] = DOk d /\
  mergeDrivers other nmb (fun _ => []) (fun _ => 1) nopaths [(1%nat, EKPos); (2%nat, EKNeg)]
    (Bld 7 [] vt_empty (fun _ => None) [] []) [(0%nat, d)] = DOk s' /\
  bnodes s' = [(7%nat, BState 0 (Range 0 3)); (8%nat, BState 0 (Range 4 7))] /\
  bdeps s' = [DDep 5 7 (Some (lit "s")) (Range 0 3) EKNone; DDep 6 8 (Some (lit "s")) (Range 4 7) EKNone] /\
  map (fun p => (psym p, pnode p, pkind p)) (bpend s') =
    [(1, Some 7, EKPos); (2, Some 7, EKNeg); (1, Some 8, EKPos); (2, Some 8, EKNeg)]%nat.
Proof. eexists _, _. vm_compute. repeat split. Qed.

(** * C65: a read through a modport gets an edge from every node that carries one of the
    bits read.  [ops]: the variable nodes of the interface; [behind]: what the modport
    port resolves to. *)
Definition Full_c65 : Prop := forall sykind nm behind ops s sy b m v vb b' n i,
  sykind sy = SkModport -> bvt s = vt_run vt_empty ops -> behind_var (behind sy m) v vb ->
  In (v, b', n) ops -> bit vb i -> bit b' i ->
  exists r, In (DDep n m (Some (nm sy)) r EKNone) (bdeps (baddRvalue sykind nm behind s sy b (Some m))).

(** False: reading half of an interface variable that one process drives as a whole. *)
Theorem c65_part_refuted : ~ Full_c65.
Proof.
  intros H. destruct (H (fun _ => SkModport) nmb (fun _ _ => [IVar 3 (Range 0 3)]) [(3, Range 0 7, 1)]%nat
    (Bld 6 [] (vt_run vt_empty [(3, Range 0 7, 1)]%nat) (fun _ => None) [] []) 4%nat (Range 0 3) 5%nat 3%nat (Range 0 3)
    (Range 0 7) 1%nat 0) as (r & I); try reflexivity; try (now left); try (unfold bit; cbn; lia);
    try (now exists (IVar 3%nat (Range 0 3)); split; [left|constructor]).
  vm_compute in I. exact I.
Qed.
Print Assumptions c65_part_refuted.

(** False even for equal ranges, if two nodes carry them: only one gets its edge. *)
Theorem c65_two_nodes_refuted :
  bdeps (baddRvalue (fun _ => SkModport) nmb (fun _ _ => [IVar 3 (Range 0 7)])
    (Bld 6 [] (vt_run vt_empty [(3, Range 0 7, 1); (3, Range 0 7, 2)]%nat) (fun _ => None) [] []) 4%nat (Range 0 7) (Some 5%nat))
  = [DDep 1 5 (Some (lit "s")) (Range 0 7) EKNone].
Proof. vm_compute. reflexivity. Qed.
Print Assumptions c65_two_nodes_refuted.

(** What holds: exactly the nodes registered with the very bounds of a resolved reference
    get an edge (for nodes that do not share bits and ascending bounds). *)
Theorem c65_equal_bounds_partial : forall sykind nm behind ops s sy b m,
  sykind sy = SkModport -> bvt s = vt_run vt_empty ops -> apart_nodes ops ->
  (forall v vb, behind_var (behind sy m) v vb -> rleft vb <= rright vb) ->
  exists ds, bdeps (baddRvalue sykind nm behind s sy b (Some m)) = bdeps s ++ ds /\
    bpend (baddRvalue sykind nm behind s sy b (Some m)) = bpend s /\
    forall x, In x ds <-> exists n v vb b', x = DDep n m (Some (nm sy)) b EKNone /\
      behind_var (behind sy m) v vb /\ In (v, b', n) ops /\ forall i, bit vb i <-> bit b' i.
Proof.
  intros sykind nm behind ops s sy b m K V D A. setoid_rewrite <- resolve_spec. setoid_rewrite <- resolve_spec in A.
  unfold baddRvalue. rewrite K, V. cbn [bemit bdeps bpend].
  eexists. split; [reflexivity|]. split; [reflexivity|]. intros x. rewrite in_flat_map. split.
  - intros ([v vb] & I & J). cbn [fst snd] in J. destruct (vt_lookup _ v vb) as [n|] eqn:L; [|destruct J].
    destruct J as [<-|[]]. apply (lookup_history ops v vb n D (A v vb I)) in L. destruct L as (b' & I' & L & U).
    exists n, v, vb, b'. split; [reflexivity|]. split; [exact I|]. split; [exact I'|].
    intros i. rewrite !bit_lu, L, U. pose proof (A v vb I). unfold lower, upper. lia.
  - intros (n & v & vb & b' & -> & I & I' & H). exists (v, vb). split; [exact I|]. cbn [fst snd].
    assert (L : vt_lookup (vt_run vt_empty ops) v vb = Some n); [|rewrite L; now left].
    apply (lookup_history ops v vb n D (A v vb I)). exists b'. split; [exact I'|].
    pose proof (A v vb I) as Av. pose proof (H (rleft vb)) as H1. pose proof (H (rright vb)) as H2.
    pose proof (H (lower b')) as H3. pose proof (H (upper b')) as H4. rewrite !bit_lu in *.
    pose proof (lower_le_upper b').
    assert (lower vb = rleft vb) by (unfold lower; lia). assert (upper vb = rright vb) by (unfold upper; lia). lia.
Qed.
Print Assumptions c65_equal_bounds_partial.

(** Other reads go to the pending queue. *)
Theorem c65_other_reads : forall sykind nm behind s sy b n, sykind sy <> SkModport \/ n = None ->
  bdeps (baddRvalue sykind nm behind s sy b n) = bdeps s /\
  bpend (baddRvalue sykind nm behind s sy b n) = bpend s ++ [Pend sy (nm sy) b n EKNone].
Proof.
  intros sykind nm behind s sy b n H. unfold baddRvalue.
  destruct (sykind sy), n; cbn; auto; destruct H; congruence.
Qed.
Print Assumptions c65_other_reads.

Example c65_ex : bdeps (baddRvalue (fun _ => SkModport) nmb (fun _ _ => [IPort [IVar 3 (Range 0 3); IOther]; IVar 3 (Range 4 7)])
    (Bld 6 [] (vt_run vt_empty [(3, Range 0 3, 1); (3, Range 4 7, 2)]%nat) (fun _ => None) [] []) 4%nat (Range 0 7) (Some 5%nat))
  = [DDep 1 5 (Some (lit "s")) (Range 0 7) EKNone; DDep 2 5 (Some (lit "s")) (Range 0 7) EKNone].
Proof. vm_compute. reflexivity. Qed.

(** * C76: a write to interface bits, directly or through a modport, gets an edge to every
    interface node that carries one of the bits. *)
Definition Full_c76 : Prop := forall sykind nm behind ops sy b dl d v vb b' n i,
  sykind sy = SkModport -> In d dl -> behind_var (behind sy d) v vb ->
  apart_nodes ops -> In (v, b', n) ops -> bit vb i -> bit b' i ->
  exists r, In (DDep d n (Some (nm sy)) r EKNone) (interfaceEdges sykind nm behind (vt_run vt_empty ops) sy b dl).

(** False: a write of half of an interface variable whose node carries all of it. *)
Theorem c76_part_refuted : ~ Full_c76.
Proof.
  intros H. destruct (H (fun _ => SkModport) nmb (fun _ _ => [IVar 3 (Range 0 3)]) [(3, Range 0 7, 1)]%nat
    4%nat (Range 0 3) [5%nat] 5%nat 3%nat (Range 0 3) (Range 0 7) 1%nat 0) as (r & I);
    try reflexivity; try (now left); try (unfold bit; cbn; lia);
    try (now exists (IVar 3%nat (Range 0 3)); split; [left|constructor]).
  - intros p s b n q b' n' r E. destruct p as [|o p]; cbn [app] in E; injection E; intros Q; intros;
      [destruct q; discriminate|destruct p; discriminate].
  - vm_compute in I. exact I.
Qed.
Print Assumptions c76_part_refuted.

(** What holds: the edges go exactly to the nodes with the very bounds that are written,
    each annotated with the bounds of the node. *)
Theorem c76_equal_bounds_partial : forall sykind nm behind ops sy b dl, apart_nodes ops -> rleft b <= rright b ->
  (forall d v vb, In d dl -> behind_var (behind sy d) v vb -> rleft vb <= rright vb) ->
  forall x, In x (interfaceEdges sykind nm behind (vt_run vt_empty ops) sy b dl) <->
    exists d n v vb b', In d dl /\ x = DDep d n (Some (nm sy)) vb EKNone /\ In (v, b', n) ops /\
      lower b' = rleft vb /\ upper b' = rright vb /\
      ((sykind sy = SkModport /\ behind_var (behind sy d) v vb) \/
       (sykind sy = SkVariable /\ v = sy /\ vb = b)).
Proof.
  intros sykind nm behind ops sy b dl D A B x. setoid_rewrite <- resolve_spec. setoid_rewrite <- resolve_spec in B.
  unfold interfaceEdges. rewrite in_flat_map. split.
  - intros (d & Id & J). destruct (sykind sy) eqn:K; [| |destruct J].
    + apply in_flat_map in J. destruct J as ([v vb] & I & J). cbn [fst snd] in J.
      destruct (vt_lookup _ v vb) as [n|] eqn:L; [|destruct J]. destruct J as [<-|[]].
      apply (lookup_history ops v vb n D (B d v vb Id I)) in L. destruct L as (b' & I' & L & U).
      exists d, n, v, vb, b'. auto 10.
    + destruct (vt_lookup _ sy b) as [n|] eqn:L; [|destruct J]. destruct J as [<-|[]].
      apply (lookup_history ops sy b n D A) in L. destruct L as (b' & I' & L & U). exists d, n, sy, b, b'. auto 10.
  - intros (d & n & v & vb & b' & Id & -> & I' & L & U & [[K I]|(K & -> & ->)]); exists d; (split; [exact Id|]); rewrite K.
    + apply in_flat_map. exists (v, vb). split; [exact I|]. cbn [fst snd].
      assert (Lk : vt_lookup (vt_run vt_empty ops) v vb = Some n) by (apply (lookup_history ops v vb n D (B d v vb Id I)); eauto).
      rewrite Lk. now left.
    + assert (Lk : vt_lookup (vt_run vt_empty ops) sy b = Some n) by (apply (lookup_history ops sy b n D A); eauto).
      rewrite Lk. now left.
Qed.
Print Assumptions c76_equal_bounds_partial.

Example c76_ex : interfaceEdges (fun _ => SkVariable) nmb nopaths (vt_run vt_empty [(3, Range 0 3, 1); (3, Range 4 7, 2)]%nat)
  3%nat (Range 4 7) [5%nat] = [DDep 5 2 (Some (lit "s")) (Range 4 7) EKNone].
Proof. vm_compute. reflexivity. Qed.
