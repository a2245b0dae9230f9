(** The analysis of a block does not fail, whatever the block reads, if two ranges that it
    writes are equal or apart. *)
From Verif Require Import Base M_Graph M_Range M_Netlist M_Annot M_Interval M_Heap M_Drivers M_Pending M_DFA
  S_Interval S_Drivers S_Annot S_Pending S_DFA S_Proc
  P_Interval P_Heap P_Drivers P_DriversX P_Annot P_Pending P_DFA P_DFA2 P_DFA4 P_Flow2 P_Prec6.

Section Total.
Variable nm : nat -> str.
Variable n0 : nat.
Variable R : list ref.
Variable W : trace.
Hypothesis Al : aligned_writes W.
Notation auto_ := (fun _ : nat => false).
Notation kept := (kept nm n0 R W).

Lemma each_ok {A} (P : st -> Prop) (f : st -> A -> dres st) l : (forall s x, In x l -> P s -> exists s', f s x = DOk s' /\ P s') -> forall s, P s -> exists s', each f s l = DOk s' /\ P s'.
Proof.
  induction l as [|x l IH]; intros H s Ps; cbn [each]; [eauto|]. destruct (H s x (or_introl eq_refl) Ps) as (s1 & -> & P1). cbn [dbind]. apply IH; auto.
  intros s0 y I. apply H. now right.
Qed.
Lemma loop_ok d n sy b : allvalid d -> forall its, (forall x, In x its -> In x (ivs d)) -> exists r, rv_loop nm d n sy b its = DOk r.
Proof.
  intros Va. induction its as [|x its IH]; intros Hi; cbn [rv_loop]; [eauto|]. unfold getDriverList.
  destruct (get (lists d) (ival x)) as [l|] eqn:G; [|destruct (Va x (Hi x (or_introl eq_refl)) G)]. cbn [dbind]. destruct (contains _ b); [eauto|].
  destruct IH as ([st' ds] & ->); [intros y I; apply Hi; now right|]. cbn [dbind]. eauto.
Qed.
Lemma rv_ok s sy b : kept s -> (forall i, bit b i -> rbit R sy i) -> exists s', handleRvalue nm None s sy b = DOk s' /\ kept s'.
Proof.
  intros K H. assert (Q : exists s', handleRvalue nm None s sy b = DOk s').
  { unfold handleRvalue. destruct (nth_error (adefs (cur s)) sy) as [d|] eqn:Ed; [|eauto]. destruct (anode (cur s)) as [n|]; [|eauto].
    assert (Dd : defs (cur s) sy = d) by (unfold defs; now apply nth_error_nth). pose proof (k_ok _ _ _ _ (proj2 K) sy) as Kd. rewrite Dd in Kd.
    destruct (loop_ok d n sy b (proj1 (ok_uns _ _ _ Kd)) (dm_find d b)) as ([stop ds] & ->); [intros x I; unfold dm_find in I; now apply in_ivfind in I|].
    cbn [dbind]. destruct stop; eauto. }
  destruct Q as (s' & E). exists s'. split; [exact E|]. eapply rvalue_keep; eauto.
Qed.
Lemma note_ok s x : kept s -> In x R -> exists s', noteReference nm auto_ None None s x = DOk s' /\ kept s'.
Proof.
  intros K I. unfold noteReference. destruct (negb (areach (cur s))); [eauto|]. cbv beta iota. apply rv_ok; [exact K|]. intros i B. exists (snd x). split; [destruct x; exact I|exact B].
Qed.
Lemma notes_ok l s : kept s -> incl l R -> exists s', each (noteReference nm auto_ None None) s l = DOk s' /\ kept s'.
Proof. intros K H. apply each_ok; [|exact K]. intros s0 x I K0. apply note_ok; auto. Qed.
Definition ready (s : st) : Prop := kept s /\ anode (cur s) <> None.
Lemma lvalue_ok bl s sy b : ready s -> inW W sy (lower b) (upper b) -> exists s', handleLvalue bl s sy b = DOk s' /\ ready s'.
Proof.
  intros [K N] Iw. assert (Q : exists s', handleLvalue bl s sy b = DOk s' /\ anode (cur s') <> None).
  { unfold handleLvalue. destruct (anode (cur s)) as [n|] eqn:En; [|destruct (N eq_refl)]. destruct bl; [|eexists; split; [reflexivity|cbn; congruence]].
    destruct (track_ok W (cur s) sy b [n] false Al (k_ok _ _ _ _ (proj2 K)) Iw ltac:(discriminate)) as (a & -> & _ & Q & _). cbn [dbind]. eexists. split; [reflexivity|]. cbn. congruence. }
  destruct Q as (s' & E & N'). exists s'. split; [exact E|]. split; [|exact N']. eapply lvalue_keep; eauto.
Qed.
Lemma update_node s n c : anode (cur (updateNode s n c)) <> None.
Proof. unfold updateNode. destruct (acond (cur s)); cbn; discriminate. Qed.
Lemma rhs_ok s r : kept s -> incl (source_refs r) R -> exists s', drive_rhs nm auto_ None s r = DOk s' /\ kept s'.
Proof.
  intros K H. assert (Q : exists s', drive_rhs nm auto_ None s r = DOk s').
  { destruct r as [[sy b]|l| |]; cbn [drive_rhs source_refs] in *; [|destruct (notes_ok l s K H) as (s' & E & _); eauto|eauto|].
    - destruct (rv_ok s sy b K) as (s' & E & _); [|eauto]. intros i B. exists b. split; [apply H; now left|exact B].
    - destruct (anode (cur s)); [|eauto]. destruct (create s KConst). eauto. }
  destruct Q as (s' & E). exists s'. split; [exact E|]. eapply rhs_keep; eauto.
Qed.
Lemma seg_ok l bl n c s g : kept s -> oown n0 (fnext (fxs s)) n -> oown n0 (fnext (fxs s)) c -> (forall x, In x (slhs g) -> wref W x) -> incl (flat_map source_refs (srhs g)) R ->
  exists s', do_seg nm auto_ None l bl n c s g = DOk s'.
Proof.
  intros K On Oc Hw Hr. unfold do_seg. cbv zeta.
  destruct (cur_keep nm n0 R W s (AS (adefs (cur s)) n c (areach (cur s))) K) as [K0 L0]; [destruct K as [_ [A B C D]]; split; auto|].
  destruct (create _ (KAssign l)) as [s1 m] eqn:Ec. destruct (create_keep _ _ _ _ _ _ _ _ K0 Ec) as ([K1 L1] & Om & _).
  destruct (update_keep nm n0 R W s1 m false K1 Om) as [K2 L2].
  destruct (each_ok ready (fun s x => handleLvalue bl s (fst x) (snd x)) (slhs g)) with (s := updateNode s1 m false) as (s2 & E2 & K3 & _).
  - intros s3 x I K3. apply lvalue_ok; [exact K3|]. now apply Hw.
  - split; [exact K2|apply update_node].
  - rewrite E2. cbn [dbind]. destruct (each_ok kept (drive_rhs nm auto_ None) (srhs g)) with (s := s2) as (s3 & E3 & _); [|exact K3|eauto].
    intros s4 x I K4. apply rhs_ok; [exact K4|]. intros y J. apply Hr. apply in_flat_map. eauto.
Qed.
Lemma aligned_ok s l bl gs : kept s -> (forall g x, In g gs -> In x (slhs g) -> wref W x) -> incl (flat_map (fun g => flat_map source_refs (srhs g)) gs) R ->
  exists s', do_aligned nm auto_ None s l bl gs = DOk s'.
Proof.
  intros K Hw Hr. unfold do_aligned. pose proof K as [_ Ka]. pose proof (k_node _ _ _ _ Ka) as On. pose proof (k_cond _ _ _ _ Ka) as Oc.
  revert On Oc Hw Hr. generalize (anode (cur s)) (acond (cur s)). intros n c. clear Ka. revert s K. induction gs as [|g gs IH]; intros s K On Oc Hw Hr; cbn [each]; [eauto|].
  assert (Hg : (forall x, In x (slhs g) -> wref W x) /\ incl (flat_map source_refs (srhs g)) R).
  { split; [intros x I; apply (Hw g); [now left|exact I]|]. intros x I. apply Hr. cbn. apply in_or_app. now left. }
  destruct Hg as [G1 G2]. destruct (seg_ok l bl n c s g K On Oc G1 G2) as (s1 & E1). rewrite E1. cbn [dbind].
  destruct (seg_keep nm n0 R W Al l bl n c s g s1 K On Oc G1 G2 E1) as [K1 L1]. apply IH; auto.
  - eapply oown_le; eauto.
  - eapply oown_le; eauto.
  - intros g' x I. apply Hw. now right.
  - intros x I. apply Hr. cbn. apply in_or_app. now right.
Qed.
Lemma legacy_ok s l bl lhs rhs : kept s -> (forall x, In x lhs -> wref W x) -> incl rhs R -> exists s', do_legacy nm auto_ None s l bl lhs rhs = DOk s'.
Proof.
  intros K Hw Hr. unfold do_legacy. destruct (create s (KAssign l)) as [s1 m] eqn:Ec. destruct (create_keep _ _ _ _ _ _ _ _ K Ec) as ([K1 L1] & Om & _).
  destruct (update_keep nm n0 R W s1 m false K1 Om) as [K2 L2].
  destruct (each_ok ready (noteReference nm auto_ None (Some bl)) lhs) with (s := updateNode s1 m false) as (s2 & E2 & K3 & _).
  - intros s3 x I K3. unfold noteReference. destruct (negb (areach (cur s3))); [eauto|]. cbv beta iota. apply lvalue_ok; [exact K3|]. exact (Hw x I).
  - split; [exact K2|apply update_node].
  - rewrite E2. cbn [dbind]. destruct (notes_ok rhs s2 K3 Hr) as (s3 & E3 & _). eauto.
Qed.
Lemma join_ok s o : kept s -> keptA n0 W (fnext (fxs s)) o -> exists s', joinState s o = DOk s' /\ kept s'.
Proof.
  intros K Ko. assert (Q : exists s', joinState s o = DOk s').
  { unfold joinState. destruct (Bool.eqb _ _); [|destruct (negb _); eauto]. unfold mergeStates.
    destruct (merge_defs_ok W Al (adefs o) 0 (cur s)) as (a & -> & _).
    - intros j d J. cbn. assert (Q : defs o j = d) by (unfold defs; now apply nth_error_nth). rewrite <- Q. apply (k_ok _ _ _ _ Ko).
    - apply (k_ok _ _ _ _ (proj2 K)).
    - cbn [dbind]. destruct (mergeNodes _ _ _) as [s1 n]. destruct (mergeNodes _ _ _) as [s2 c]. eauto. }
  destruct Q as (s' & E). exists s'. split; [exact E|]. eapply join_keep; eauto.
Qed.
Lemma enter_if_ok s l k c : kept s -> incl c R -> exists s', enter_if nm auto_ None s l k c = DOk s'.
Proof.
  intros K Hc. unfold enter_if. destruct k as [k|]; [destruct (notes_ok c s K Hc) as (s' & E & _); eauto|].
  destruct (create s (KCond l)) as [s1 n] eqn:Ec. destruct (create_keep _ _ _ _ _ _ _ _ K Ec) as ([K1 L1] & On & _).
  destruct (update_keep nm n0 R W s1 n true K1 On) as [K2 L2]. destruct (notes_ok c _ K2 Hc) as (s' & E & _). eauto.
Qed.
Lemma enter_case_ok s l c : kept s -> incl c R -> exists s', enter_case nm auto_ None s l c = DOk s'.
Proof.
  intros K Hc. unfold enter_case. destruct (create s (KCase l)) as [s1 n] eqn:Ec. destruct (create_keep _ _ _ _ _ _ _ _ K Ec) as ([K1 L1] & On & _).
  destruct (update_keep nm n0 R W s1 n true K1 On) as [K2 L2]. destruct (notes_ok c _ K2 Hc) as (s' & E & _). eauto.
Qed.

Notation exec := (exec nm auto_ None).
Notation exec_items := (exec_items nm auto_ None).
Lemma exec_ok : (forall q s, incl (all_refs q) W -> incl (read_refs q) R -> kept s -> exists s', exec s q = DOk s') /\
  (forall c s a0 acc, incl (call_refs c) W -> incl (cread_refs c) R -> kept s -> keptA n0 W (fnext (fxs s)) a0 -> keptA n0 W (fnext (fxs s)) acc -> exists s', exec_items s a0 acc c = DOk s').
Proof.
  destruct (exec_keep nm n0 R W Al) as [Xk Ik]. apply stmt_clist.
  - intros s _ _ K. cbn. eauto.
  - intros l bl gs s Hw Hr K. refine (aligned_ok s l bl gs K _ Hr). intros g x Ig Ix. unfold all_refs in Hw. cbn [all_writes nb_writes] in Hw.
    destruct (incl_app1 _ _ _ Hw) as [H1 H2]. exists l, (snd x). split; [|auto]. destruct bl.
    + apply H1. apply in_flat_map. exists g. split; [exact Ig|]. cbn. unfold writes. apply in_map_iff. exists x. destruct x; auto.
    + apply H2. apply in_flat_map. exists g. split; [exact Ig|]. cbn. unfold writes. apply in_map_iff. exists x. destruct x; auto.
  - intros l bl lhs rhs s Hw Hr K. refine (legacy_ok s l bl lhs rhs K _ Hr). intros x Ix. unfold all_refs in Hw. cbn [all_writes nb_writes] in Hw.
    destruct (incl_app1 _ _ _ Hw) as [H1 H2]. destruct bl; [apply (wr_in W l lhs x H1 Ix)|]. rewrite static_id in H2. apply (wr_in W l lhs x H2 Ix).
  - intros p IHp q IHq s Hw Hr K. unfold all_refs in Hw. cbn [all_writes nb_writes read_refs] in Hw, Hr. apply incl_app2 in Hw. destruct Hw as [W1 W2]. apply incl_app1 in Hr. destruct Hr as [R1 R2].
    cbn [M_DFA.exec]. destruct (IHp s W1 R1 K) as (s1 & E1). rewrite E1. cbn [dbind]. apply IHq; auto. apply (Xk p s s1 W1 R1 K E1).
  - intros l k c t IHt s Hw Hr K. cbn [M_DFA.exec]. cbn [read_refs] in Hr. apply incl_app1 in Hr. destruct Hr as [R1 R2].
    destruct (enter_if_ok s l k c K R1) as (s1 & E1). rewrite E1. cbn [dbind]. pose proof (enter_ifk_keep nm n0 R W s l k c s1 K R1 E1) as [K1 L1].
    destruct (branch_in k (cur s1)) as [inT inF] eqn:Eb. destruct (branch_keep _ _ _ k _ _ _ (proj2 K1) Eb) as [KT KF]. destruct (cur_keep nm n0 R W s1 inT K1 KT) as [K1' L1'].
    destruct (IHt (with_cur s1 inT) Hw R2 K1') as (s2 & E2). rewrite E2. cbn [dbind].
    destruct (Xk t (with_cur s1 inT) s2 Hw R2 K1' E2) as [K2 L2].
    destruct (join_ok s2 inF K2) as (s' & E & _); [eapply (keptA_le nm n0 W); [exact L2|exact KF]|eauto].
  - intros l k c t IHt e IHe s Hw Hr K. cbn [M_DFA.exec]. unfold all_refs in Hw. cbn [all_writes nb_writes read_refs] in Hw, Hr. apply incl_app1 in Hr. destruct Hr as [R1 R2]. apply incl_app1 in R2. destruct R2 as [R2 R3].
    apply incl_app2 in Hw. destruct Hw as [W1 W2].
    destruct (enter_if_ok s l k c K R1) as (s1 & E1). rewrite E1. cbn [dbind]. pose proof (enter_ifk_keep nm n0 R W s l k c s1 K R1 E1) as [K1 L1].
    destruct (branch_in k (cur s1)) as [inT inF] eqn:Eb. destruct (branch_keep _ _ _ k _ _ _ (proj2 K1) Eb) as [KT KF]. destruct (cur_keep nm n0 R W s1 inT K1 KT) as [K1' L1'].
    destruct (IHt (with_cur s1 inT) W1 R2 K1') as (s2 & E2). rewrite E2. cbn [dbind].
    destruct (Xk t (with_cur s1 inT) s2 W1 R2 K1' E2) as [K2 L2].
    assert (KF2 : keptA n0 W (fnext (fxs s2)) inF) by (eapply (keptA_le nm n0 W); [exact L2|exact KF]). destruct (cur_keep nm n0 R W s2 inF K2 KF2) as [K2' L2'].
    destruct (IHe (with_cur s2 inF) W2 R3 K2') as (s3 & E3). rewrite E3. cbn [dbind].
    destruct (Xk e (with_cur s2 inF) s3 W2 R3 K2' E3) as [K3 L3].
    destruct (join_ok s3 (cur s2) K3) as (s' & E & _); [eapply (keptA_le nm n0 W); [exact L3|exact (proj2 K2)]|eauto].
  - intros l c its IH s Hw Hr K. rewrite exec_case. cbn [read_refs] in Hr. apply incl_app1 in Hr. destruct Hr as [R1 R2].
    destruct (enter_case_ok s l c K R1) as (s1 & E1). rewrite E1. cbn [dbind]. pose proof (enter_case_keep nm n0 R W s l c s1 K R1 E1) as [K1 _].
    refine (IH s1 (cur s1) unreachableState Hw R2 K1 (proj2 K1) (unreach_keep _ _ _)).
  - intros s a0 acc _ _ K K0 Ka. cbn. eauto.
  - intros p IHp s a0 acc Hw Hr K K0 Ka. change (exec_items s a0 acc (CDefault p)) with (dbind (exec (with_cur s a0) p) (fun s1 => joinState (with_cur s1 acc) (cur s1))).
    destruct (cur_keep nm n0 R W s a0 K K0) as [K1 L1]. destruct (IHp (with_cur s a0) Hw Hr K1) as (s1 & E1). rewrite E1. cbn [dbind].
    destruct (Xk p (with_cur s a0) s1 Hw Hr K1 E1) as [K2 L2]. destruct (cur_keep nm n0 R W s1 acc K2) as [K3 L3]; [eapply (keptA_le nm n0 W); [exact L2|exact Ka]|].
    destruct (join_ok _ _ K3 (proj2 K2)) as (s' & E & _). eauto.
  - intros c p IHp r IHr s a0 acc Hw Hr K K0 Ka.
    change (exec_items s a0 acc (CCons c p r)) with (dbind (each (noteReference nm auto_ None None) (with_cur s a0) c) (fun s1 => dbind (exec s1 p) (fun s2 => dbind (joinState (with_cur s2 acc) (cur s2)) (fun s3 => exec_items s3 a0 (cur s3) r)))).
    unfold call_refs in Hw. cbn [call_writes cnb_writes cread_refs] in Hw, Hr. apply incl_app2 in Hw. destruct Hw as [W1 W2]. apply incl_app1 in Hr. destruct Hr as [R1 R2]. apply incl_app1 in R2. destruct R2 as [R2 R3].
    destruct (cur_keep nm n0 R W s a0 K K0) as [K1 L1]. destruct (notes_ok c _ K1 R1) as (s1 & E1 & _). rewrite E1. cbn [dbind]. destruct (notes_keep nm n0 R W c _ s1 K1 R1 E1) as [K2 L2].
    destruct (IHp s1 W1 R2 K2) as (s2 & E2). rewrite E2. cbn [dbind]. destruct (Xk p s1 s2 W1 R2 K2 E2) as [K3 L3].
    assert (Lg : fnext (fxs s) <= fnext (fxs s2)) by (unfold leF in *; cbn [with_cur fxs] in *; lia).
    destruct (cur_keep nm n0 R W s2 acc K3) as [K4 L4]; [eapply (keptA_le nm n0 W); [exact Lg|exact Ka]|].
    destruct (join_ok _ _ K4 (proj2 K3)) as (s3 & E3 & _). rewrite E3. cbn [dbind]. destruct (join_keep nm n0 R W Al _ _ _ K4 (proj2 K3) E3) as [K5 L5].
    assert (Lh : fnext (fxs s) <= fnext (fxs s3)) by (unfold leF in *; cbn [with_cur fxs] in *; lia).
    apply (IHr s3 a0 (cur s3) W2 R3 K5); [eapply (keptA_le nm n0 W); [exact Lh|exact K0]|exact (proj2 K5)].
Qed.
Lemma lv_ok f : forall l a, (forall t b m, In (t, b, m) l -> own n0 f m /\ inW W t (lower b) (upper b)) -> keptA n0 W f a -> exists a', process_lv a l = DOk a'.
Proof.
  induction l as [|[[t b] m] l IH]; intros a H K; cbn [process_lv]; [eauto|]. destruct (H t b m (or_introl eq_refl)) as [O Iw].
  destruct (track_ok W a t b [m] false Al (k_ok _ _ _ _ K) Iw ltac:(discriminate)) as (a1 & E1 & _). rewrite E1. cbn [dbind].
  apply IH; [intros t' b' m' I; apply H; now right|]. refine (track_keep n0 W Al f a t b [m] false a1 K Iw _ _ E1); [intros n [<-|[]]; exact O|discriminate].
Qed.
Lemma block_ok q : incl (all_refs q) W -> incl (read_refs q) R -> exists s, run_block nm auto_ None n0 q = DOk s.
Proof.
  intros Hw Hr. unfold run_block.
  assert (K0 : kept (start n0)).
  { split; [split; cbn; [lia|intros d []|intros p []|intros t b m []]|]. split; [| |exact I|exact I].
    - intros sy. unfold defs. cbn. destruct sy; apply okd_empty.
    - intros sy i n H. unfold hasA, defs in H. cbn in H. destruct sy; destruct H as (x & l & [] & _). }
  destruct (proj1 exec_ok q _ Hw Hr K0) as (s1 & E1). rewrite E1. cbn [dbind]. destruct (proj1 (exec_keep nm n0 R W Al) q _ _ Hw Hr K0 E1) as [[Kf Ka] _].
  unfold finalize. destruct (lv_ok _ _ _ (k_lv _ _ _ _ _ Kf) Ka) as (a & ->). cbn [dbind]. eauto.
Qed.
End Total.
