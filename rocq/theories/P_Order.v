(** Proofs about the order of assignments and blocks. *)
From Coq Require Import Permutation.
From Verif Require Import Base M_Graph M_Range M_Netlist M_DFS M_Path M_Annot M_Interval M_Heap M_Drivers M_Pending M_DFA M_Builder M_Slice M_Port M_Flow M_Proc M_Order
  S_Graph S_Reach S_Netlist S_Annot S_Interval S_Drivers S_Pending S_DFA S_Builder S_Slice S_Port S_Flow S_Proc S_Seq S_Settle S_Prec2 S_Order
  P_Graph P_DFS P_Path P_Interval P_Heap P_Drivers P_DriversX P_Annot P_Pending P_Pending2 P_DFA P_DFA2 P_Builder P_Slice P_Slice2 P_Port P_Flow P_Flow2 P_Flow3 P_Flow4 P_Flow5 P_Flow6 P_Flow7 P_Flow8
  P_Proc1 P_Proc2 P_Proc3 P_Seq1 P_Seq2 P_Seq3 P_Settle P_Prec7.

(** * A continuous assignment is handled as a block *)
Section Flv.
Variable nm : nat -> str.
Variable automatic : nat -> bool.
Variable external : option nat.
Definition quiet (s s' : st) : Prop := flv (fxs s') = flv (fxs s).
Lemma each_quiet {A} (f : st -> A -> dres st) : (forall s x s', f s x = DOk s' -> quiet s s') -> forall l s s', each f s l = DOk s' -> quiet s s'.
Proof.
  intros H. induction l as [|x l IH]; intros s s' E; cbn in E; [injection E as <-; reflexivity|].
  destruct (f s x) as [s1|] eqn:E1; [|discriminate]. cbn in E. unfold quiet. rewrite (IH _ _ E). eapply H; eauto.
Qed.
Lemma rv_quiet s sy b s' : handleRvalue nm external s sy b = DOk s' -> quiet s s'.
Proof.
  unfold handleRvalue. destruct (nth_error _ _) as [d|]; [|intros [= <-]; reflexivity]. destruct (anode (cur s)) as [n|]; [|intros [= <-]; reflexivity].
  destruct (rv_loop _ _ _ _ _ _) as [[stop ds]|]; [|discriminate]. cbn [dbind]. destruct stop; intros [= <-]; [reflexivity|].
  assert (Q : forall l s0, quiet s0 (fold_left (fun s2 (x : iv nat) => addRvalue nm s2 sy (Range (ilo x) (ihi x)) (Some n)) l s0)).
  { induction l as [|x l IH]; intros s0; [reflexivity|]. cbn [fold_left]. unfold quiet. rewrite IH. reflexivity. }
  unfold quiet. rewrite Q. reflexivity.
Qed.
Lemma lv_quiet s sy b s' : handleLvalue true s sy b = DOk s' -> quiet s s'.
Proof. unfold handleLvalue. destruct (anode (cur s)); [|discriminate]. destruct (trackDrivers _ _ _ _ _); [|discriminate]. intros [= <-]. reflexivity. Qed.
Lemma note_quiet lv s x s' : lv <> Some false -> noteReference nm automatic external lv s x = DOk s' -> quiet s s'.
Proof.
  intros N. unfold noteReference. destruct (negb _); [intros [= <-]; reflexivity|]. destruct (automatic _); [intros [= <-]; reflexivity|].
  destruct lv as [[]|]; [apply lv_quiet|congruence|apply rv_quiet].
Qed.
Lemma upd_quiet s n c : quiet s (updateNode s n c).
Proof. unfold updateNode. destruct (acond (cur s)); reflexivity. Qed.
Lemma legacy_quiet s l lhs rhs s' : do_legacy nm automatic external s l true lhs rhs = DOk s' -> quiet s s'.
Proof.
  unfold do_legacy. cbn [create]. destruct (each _ (updateNode _ _ _) lhs) as [s2|] eqn:E; [|discriminate]. cbn [dbind]. intros E'.
  unfold quiet. rewrite (each_quiet _ (fun s x s' => note_quiet None s x s' ltac:(discriminate)) _ _ _ E').
  rewrite (each_quiet _ (fun s x s' => note_quiet (Some true) s x s' ltac:(discriminate)) _ _ _ E). rewrite upd_quiet. reflexivity.
Qed.
Lemma rhs_quiet s r s' : drive_rhs nm automatic external s r = DOk s' -> quiet s s'.
Proof.
  destruct r as [[sy b]|l| |]; cbn [drive_rhs].
  - apply rv_quiet.
  - apply each_quiet. intros ? ? ?. apply note_quiet. discriminate.
  - intros [= <-]. reflexivity.
  - destruct (anode (cur s)); [|intros [= <-]; reflexivity]. cbn [create]. intros [= <-]. reflexivity.
Qed.
Lemma aligned_quiet s l gs s' : do_aligned nm automatic external s l true gs = DOk s' -> quiet s s'.
Proof.
  unfold do_aligned. apply each_quiet. intros s0 g s0'. unfold do_seg. cbn [create].
  destruct (each (fun s x => handleLvalue true s (fst x) (snd x)) (updateNode _ _ _) (slhs g)) as [s2|] eqn:E; [|discriminate]. cbn [dbind]. intros E'.
  unfold quiet. rewrite (each_quiet _ rhs_quiet _ _ _ E').
  rewrite (each_quiet (fun s x => handleLvalue true s (fst x) (snd x)) (fun s x s' => lv_quiet s (fst x) (snd x) s') _ _ _ E). rewrite upd_quiet. reflexivity.
Qed.
End Flv.

Section Same.
Context {V : Type}.
Variable vz : V.
Variable rb : bool.
Variable h : hints.
Variable nm : nat -> str.
Variable ports : list fport.
Variable width : nat -> Z.
(** The assignment as a block. *)
Definition asg_block (a : fasg V) : fproc V := FProc [] (PAsg true (fa_lhs a) (fa_rhs a)).
Definition task_block (t : task V) : fproc V := match t with TAsg a => asg_block a | TProc x => x end.
Lemma merge_width k k' m w w' : forall blk s, mergeDrivers k nm m w k' [] s blk = mergeDrivers k nm m w' k' [] s blk.
Proof.
  induction blk as [|[sy d] blk IH]; intros s; cbn [mergeDrivers]; [reflexivity|].
  assert (Q : forall its s, mergeIntervals k nm m w k' [] s sy d its = mergeIntervals k nm m w' k' [] s sy d its).
  { induction its as [|it its IH']; intros s0; cbn [mergeIntervals]; [reflexivity|].
    change (mergeInterval k nm m w' k' [] s0 sy d it) with (mergeInterval k nm m w k' [] s0 sy d it). destruct (mergeInterval k nm m w k' [] s0 sy d it); cbn [dbind]; auto. }
  rewrite Q. destruct (mergeIntervals k nm m w' k' [] s sy d (ivs d)); cbn [dbind]; auto.
Qed.
Lemma asg_as_block s a : run_asg vz rb h nm ports s a = run_proc vz rb h nm ports width s (asg_block a).
Proof.
  unfold run_asg, run_proc. cbn [asg_block pr_body pr_sens proc_stmt]. change (pasg_stmt vz rb h true (fa_lhs a) (fa_rhs a)) with (asg_stmt vz rb h a).
  destruct (asg_stmt vz rb h a) as [p|] eqn:Ep; [|reflexivity]. unfold run_block.
  destruct (exec nm (fun _ => false) None (start (bnext (fb s))) p) as [q|] eqn:Eq; [|reflexivity]. cbn [dbind].
  assert (F : flv (fxs q) = []).
  { unfold asg_stmt in Ep. destruct (negb rb); [injection Ep as <-; exact (legacy_quiet _ _ _ _ _ _ _ _ Eq)|].
    destruct (negb _); [injection Ep as <-; exact (legacy_quiet _ _ _ _ _ _ _ _ Eq)|]. destruct (segment_segs _) as [gs|]; [|discriminate]. injection Ep as <-.
    exact (aligned_quiet _ _ _ _ _ _ _ Eq). }
  unfold finalize. rewrite F. cbn [process_lv dbind cur fxs fnext fnodes fdeps fpend]. now rewrite (merge_width _ _ _ no_width width).
Qed.
Lemma run_tasks_blocks : forall l s, run_tasks vz rb h nm ports width s l = run_procs vz rb h nm ports width s (map task_block l).
Proof.
  induction l as [|t l IH]; intros s; [reflexivity|]. cbn [run_tasks map run_procs].
  assert (E : run_task vz rb h nm ports width s t = run_proc vz rb h nm ports width s (task_block t)) by (destruct t; [apply asg_as_block|reflexivity]).
  rewrite E. destruct (run_proc vz rb h nm ports width s (task_block t)); cbn [dbind]; auto.
Qed.
Lemma tflow_state_blocks cs l : tflow_state vz rb h nm ports width cs l = pflow_state vz rb h nm ports width cs [] (map task_block l).
Proof.
  unfold tflow_state, pflow_state, flow_state. destruct (make_all_ports h bempty ports) as [b1|]; [|reflexivity]. cbn [dbind].
  destruct (connect_all vz rb nm ports b1 cs) as [b2|]; [|reflexivity]. cbn [dbind run_asgs]. apply run_tasks_blocks.
Qed.
Lemma tflow_blocks cs l : tflow vz rb h nm ports width cs l = pflow vz rb h nm ports width cs [] (map task_block l).
Proof. unfold tflow, pflow. now rewrite tflow_state_blocks. Qed.
End Same.

(** * The contracts, seen as contracts of blocks *)
Section Wf.
Context {V : Type}.
Variable vz : V.
Variable istrue : list V -> bool.
Variable hits : list V -> list V -> bool.
Variable rb : bool.
Variable h : hints.
Variable nm : nat -> str.
Variable ports : list fport.
Variable conns : list (fconn V).
Variable l : list (task V).
Notation env := (nat -> nat -> V).
Notation asgs := (asgs_of l).
Notation procs := (procs_of l).
Notation regs := (regs_of l).
Definition blocks : list (fproc V) := map asg_block asgs ++ procs.
Hypothesis Wf : wf_design vz rb h ports conns asgs.
Hypothesis Cb : forall x, In x procs -> comb_block vz rb h ports x.
Hypothesis Wr : wf_regs vz rb h ports conns asgs procs regs.

Lemma tasks_perm : Permutation (map task_block l) (blocks ++ regs).
Proof.
  unfold blocks. clear. induction l as [|[a|x] r IH]; cbn; [constructor| |].
  - constructor. exact IH.
  - destruct (pr_sens x) eqn:E; cbn.
    + rewrite <- app_assoc in *. cbn. apply Permutation_cons_app. exact IH.
    + apply Permutation_cons_app. exact IH.
Qed.
Lemma blocks_wf : wf_design vz rb h ports conns [].
Proof. destruct Wf as [W1 W2 W3 W4 W5 W6 W7 W8 W9]. split; auto; intros a []. Qed.
Lemma asg_comb a : In a asgs -> comb_block vz rb h ports (asg_block a).
Proof.
  intros Ia. pose proof (w_lhs _ _ _ _ _ _ Wf a Ia) as A1. destruct (w_rhs _ _ _ _ _ _ Wf a Ia) as (A2 & A3 & A4 & A5). split; cbn [asg_block pr_sens pr_body].
  - reflexivity.
  - cbn. split; [reflexivity|]. auto.
  - exact I.
  - intros s i M. exact M.
  - cbn. intros s i _. right. tauto.
  - intros p E. cbn [proc_stmt] in E. split.
    + destruct (asg_segs vz rb h ports nm (w_hints _ _ _ _ _ _ Wf) true (fa_lhs a) (fa_rhs a) (conj A1 (conj A2 A4))) as (q & gs & Wa & E' & _ & _ & Aw & _ & _ & _ & (Al & Hi & _) & _).
      rewrite E in E'. injection E' as <-. intros l0 sy b l' b' I I'.
      destruct (Aw _ _ _ I) as (g & Ig & J). destruct (Aw _ _ _ I') as (g' & Ig' & J'). destruct (inW_cases Wa sy _ _ _ _ Al (Hi _ _ _ Ig J) (Hi _ _ _ Ig' J')) as [Q|Q]; [left|right]; exact Q.
    + destruct (asg_text vz rb h ports (w_hints _ _ _ _ _ _ Wf) true (fa_lhs a) (fa_rhs a) p (conj A1 (conj A2 (conj A3 A4))) E) as [T1 T2].
      intros l0 t w b Iw Ib L1 L2. exfalso. set (i := Z.max (lower w) (lower b)).
      assert (Lw : (lower w <= upper w)%Z) by (unfold lower, upper; lia). assert (Lb : (lower b <= upper b)%Z) by (unfold lower, upper; lia).
      destruct (T1 l0 t w i) as (j & Ej & P); [apply in_or_app; now left|rewrite P_DFA.bit_lu; lia|].
      destruct (T2 t b i Ib) as (j' & Ej' & P'); [rewrite P_DFA.bit_lu; lia|]. assert (j = j') by lia. subst j'. exact (A5 _ _ P' P).
Qed.
Lemma in_blocks x : In x blocks <-> (exists a, In a asgs /\ x = asg_block a) \/ In x procs.
Proof.
  unfold blocks. rewrite in_app_iff, in_map_iff. split; (intros [(a & A & B)|A]; [left; exists a; auto|now right]).
Qed.
Lemma blocks_comb x : In x blocks -> comb_block vz rb h ports x.
Proof. rewrite in_blocks. intros [(a & Ia & ->)|I]; [now apply asg_comb|now apply Cb]. Qed.
Lemma driven_none s i : driven ports conns [] s i -> driven ports conns asgs s i.
Proof. intros [p Ip E R|a Ia I|c Ic O I]; [eapply driven_port; eauto|destruct Ia|eapply driven_conn; eauto]. Qed.
Lemma driven_blocks s i : pdriven ports conns [] blocks s i <-> pdriven ports conns asgs procs s i.
Proof.
  split.
  - intros [D|(x & Ix & M)]; [left; now apply driven_none|]. apply in_blocks in Ix. destruct Ix as [(a & Ia & ->)|Ix]; [left; eapply driven_asg; eauto|right; eauto].
  - intros [D|(x & Ix & M)].
    + destruct D as [p Ip E R|a Ia I|c Ic O I]; [left; eapply driven_port; eauto| |left; eapply driven_conn; eauto]. right. exists (asg_block a). split; [apply in_blocks; eauto|exact I].
    + right. exists x. split; [apply in_blocks; now right|exact M].
Qed.
Lemma blocks_regs : wf_regs vz rb h ports conns [] blocks regs.
Proof.
  destruct Wr as [R1 R2 R3 R4 R5]. split; auto. intros s i j R D. apply driven_blocks in D. exact (R3 s i j R D).
Qed.
Lemma assign_self bs (v : env) : forall s i, assign vz bs (map (fun b => v (fst b) (snd b)) bs) v s i = v s i.
Proof.
  induction bs as [|[t j] bs IH]; intros s i; cbn; [reflexivity|]. destruct (Nat.eqb_spec s t) as [->|]; [destruct (Nat.eqb_spec i j) as [->|]; [reflexivity|]|]; apply IH.
Qed.
Lemma settled_blocks v : psettled vz istrue hits conns asgs procs v -> psettled vz istrue hits conns [] blocks v.
Proof.
  intros [[Sa Sc] Sp]. split; [split; [intros a []|exact Sc]|]. intros x s i Ix M. apply in_blocks in Ix. destruct Ix as [(a & Ia & ->)|Ix]; [|now apply Sp].
  cbn [asg_block pr_body prun]. rewrite <- (Sa a Ia). destruct (w_lhs _ _ _ _ _ _ Wf a Ia) as (Lv & Tl & _). destruct (lv_bits vz _ Lv Tl) as (_ & E & _). rewrite E. symmetry. apply assign_self.
Qed.
Lemma agree_blocks (v1 v2 : env) : ragree_undriven ports conns asgs procs regs v1 v2 <-> ragree_undriven ports conns [] blocks regs v1 v2.
Proof. split; intros U s i N; apply U; intros D; apply N; now apply driven_blocks. Qed.

(** * Back *)
Lemma assign_map : forall bs xs, NoDup bs -> length bs = length xs -> forall e, map (fun b => assign vz bs xs e (fst b) (snd b)) bs = xs.
Proof.
  induction bs as [|[t j] bs IH]; intros [|x xs] Nd L e; try discriminate; [reflexivity|]. cbn [map]. inversion Nd as [|? ? N Nd']; subst. f_equal.
  - cbn. now rewrite !Nat.eqb_refl.
  - transitivity (map (fun b : nat * nat => assign vz bs xs e (fst b) (snd b)) bs); [|exact (IH xs Nd' (f_equal pred L) e)]. apply map_ext_in. intros [s i] I. cbn.
    destruct (Nat.eqb_spec s t) as [->|]; [destruct (Nat.eqb_spec i j) as [->|]; [contradiction|]|]; reflexivity.
Qed.
Lemma settled_back v : (forall a, In a asgs -> length (eval vz v (fa_rhs a)) = ew (fa_rhs a)) -> psettled vz istrue hits conns [] blocks v -> psettled vz istrue hits conns asgs procs v.
Proof.
  intros Ln [[_ Sc] Sp]. split; [split; [|exact Sc]|].
  - intros a Ia. destruct (w_lhs _ _ _ _ _ _ Wf a Ia) as (Lv & Tl & Nd & _). destruct (w_rhs _ _ _ _ _ _ Wf a Ia) as (_ & _ & Ew & _). destruct (lv_bits vz _ Lv Tl) as (_ & E & _). rewrite E.
    rewrite <- (assign_map (lbits (fa_lhs a)) (eval vz v (fa_rhs a)) Nd) with (e := v); [|rewrite (Ln a Ia), <- Ew; exact (lv_length vz _ Lv Tl)].
    apply map_ext_in. intros [s i] I. cbn. apply (Sp (asg_block a)); [apply in_blocks; eauto|exact I].
  - intros x s i Ix M. apply Sp; [apply in_blocks; now right|exact M].
Qed.
Lemma once_blocks : driven_once vz ports conns asgs procs -> driven_once vz ports conns [] blocks.
Proof.
  intros [D1 D2 D3 D4 D5]. split; auto; [|intros a v []].
  assert (Q : forall g s i, gives ports conns [] blocks g s i -> exists g', gives ports conns asgs procs g' s i /\ (g = g' \/ exists a, g' = GAsg a /\ g = GProc (asg_block a))).
  { intros [a|c|x|p] s i G; cbn in G.
    - destruct G as [[] _].
    - exists (GConn c). split; [exact G|now left].
    - destruct G as [Ix M]. apply in_blocks in Ix. destruct Ix as [(a & Ia & ->)|Ix]; [exists (GAsg a)|exists (GProc x)]; (split; [split; [assumption|exact M]|eauto]).
    - exists (GInput p). split; [exact G|now left]. }
  intros g g' s i G G'. destruct (Q _ _ _ G) as (k & K & E). destruct (Q _ _ _ G') as (k' & K' & E'). pose proof (D1 _ _ _ _ K K') as <-.
  destruct E as [E|(a & E1 & E2)], E' as [E'|(a' & E1' & E2')].
  - congruence.
  - exfalso. subst g k. cbn in G. destruct G as [[] _].
  - exfalso. subst g' k. cbn in G'. destruct G' as [[] _].
  - congruence.
Qed.
End Wf.
