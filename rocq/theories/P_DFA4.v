(** Proofs about the data-flow analysis: whole statements. *)
From Coq Require Import Sorted.
From Verif Require Import Base M_Graph M_Range M_Netlist M_Annot M_Interval M_Heap M_Drivers M_Pending
  M_DFA S_Interval S_Drivers S_DFA P_Interval P_Heap P_Drivers P_DriversX P_DFA P_DFA2 P_DFA3.
Local Open Scope Z_scope.

Scheme stmt_mut := Induction for stmt Sort Prop
with clist_mut := Induction for clist Sort Prop.
Combined Scheme stmt_clist from stmt_mut, clist_mut.

Lemma dbind_assoc {A B C} (r : dres A) (f : A -> dres B) (g : B -> dres C) :
  dbind (dbind r f) g = dbind r (fun x => dbind (f x) g).
Proof. destruct r; reflexivity. Qed.
Lemma with_cur_same s : with_cur s (cur s) = s.
Proof. destruct s; reflexivity. Qed.

Section Analysis.
Variable nm : nat -> str.
Variable automatic : nat -> bool.
Variable external : option nat.
Variable W : trace.
Hypothesis A : aligned_writes W.

Local Notation ready := (ready external W).
Local Notation res := (res nm W).
Local Notation tr := (tr nm W).

(** * Writes *)
Definition bw (bl : bool) (t : trace) : trace := if bl then t else [].
Definition nw (bl : bool) (t : trace) : trace := if bl then [] else t.
Lemma bw_app bl t u : bw bl (t ++ u) = bw bl t ++ bw bl u.
Proof. now destruct bl. Qed.
Lemma nw_app bl t u : nw bl (t ++ u) = nw bl t ++ nw bl u.
Proof. now destruct bl. Qed.

Lemma write_node bl s l sy b n : ready s -> anode (cur s) = Some n -> In (n, KAssign l) (fnodes (fxs s)) ->
  incl (bw bl [(l, sy, b)]) W ->
  res s (handleLvalue bl s sy b) [bw bl [(l, sy, b)]] [] (nw bl [(l, sy, b)]) true.
Proof.
  intros (O & S & E) En Hn Hw. unfold handleLvalue. rewrite En. destruct bl; cbn [bw nw] in *.
  - destruct (track_ok W (cur s) sy b [n] false A (sa_ok _ _ _ S)) as (a & Ea & Oa & Q1 & Q2 & Q3 & H).
    { exists l, b. split; [apply Hw; now left|]. auto. }
    { discriminate. }
    rewrite Ea. cbn [dbind]. exists (with_cur s a). split; [reflexivity|]. split; [exact O|].
    cbn [with_cur cur fxs]. split; [|apply tr_refl]. split.
    + split; [exact Oa| |rewrite Q1; apply S|rewrite Q2; apply S].
      intros sy' i k Hk. apply H in Hk. destruct Hk as [(-> & _ & [[<-|[]]|[? _]])|[_ Hk]];
        [eauto|discriminate|]. apply (sa_known _ _ _ S sy' i k Hk).
    + now rewrite Q3.
    + rewrite Q3. intros ->. split; [discriminate|reflexivity].
    + intros _ _ sy' i l'. unfold drv, some_path. split.
      * intros (k & Hk & Ik). exists [(l, sy, b)]. split; [now left|]. cbn [last_w].
        apply H in Hk. destruct Hk as [(-> & Bi & [[<-|[]]|[? _]])|[Nb Hk]]; [|discriminate|].
        -- left. rewrite Nat.eqb_refl, (proj2 (bitb_spec b i) Bi). cbn.
           pose proof (proj2 O n _ _ Ik Hn) as Q. injection Q as <-. reflexivity.
        -- right. split; [|exists k; auto]. destruct (Nat.eqb_spec sy' sy) as [->|]; [|reflexivity].
           destruct (bitb b i) eqn:Eb; [|reflexivity]. apply bitb_spec in Eb. tauto.
      * intros (t & [<-|[]] & Q). cbn [last_w] in Q.
        destruct (Nat.eqb_spec sy' sy) as [->|Ns]; cbn [andb] in Q.
        -- destruct (bitb b i) eqn:Eb.
           ++ apply bitb_spec in Eb. destruct Q as [[= <-]|[[=] _]]. exists n. split; [|exact Hn].
              apply H. left. split; [reflexivity|]. split; [exact Eb|]. left. now left.
           ++ destruct Q as [[=]|[_ (k & Hk & Ik)]]. exists k. split; [|exact Ik]. apply H. right.
              split; [|exact Hk]. intros [_ Bi]. apply bitb_spec in Bi. congruence.
        -- destruct Q as [[=]|[_ (k & Hk & Ik)]]. exists k. split; [|exact Ik]. apply H. right. tauto.
  - exists (push_lv s (sy, b, n)). split; [reflexivity|].
    assert (S' : okSA W (fxs (push_lv s (sy, b, n))) (cur s)) by (destruct S as [? ? ? ?]; split; auto).
    split; [exact O|]. split.
    + apply (arm_base W (drv (fxs (push_lv s (sy, b, n))) (cur s))); [intros; reflexivity|].
      now apply (arm_self W (fxs (push_lv s (sy, b, n)))).
    + exists [], [], [(sy, b, n)]. split.
      * unfold grow. cbn. rewrite !app_nil_r. repeat split; auto; try constructor.
        -- exists []. rewrite app_nil_r. split; [reflexivity|easy].
        -- apply (proj1 O _ _ Hn).
        -- constructor.
      * split; [easy|]. split; [easy|]. split; [|split; [|split]].
        -- intros _ _ l' k name b' (? & ? & [] & _).
        -- intros _ _ k sy' i (? & ? & [] & _).
        -- intros _ _. constructor; [|constructor]. repeat split. exact Hn.
        -- intros _ _. now apply lab_plain.
Qed.
Lemma write_keeps bl s sy b s' : handleLvalue bl s sy b = DOk s' -> anode (cur s') = anode (cur s).
Proof.
  unfold handleLvalue. destruct (anode (cur s)) as [n|] eqn:En; [|discriminate]. destruct bl.
  - unfold trackDrivers. destruct (addDrivers _ _ _ _); [|discriminate]. cbn. intros [= <-]. exact En.
  - intros [= <-]. exact En.
Qed.

Lemma writes_node bl l n : forall xs s, ready s -> anode (cur s) = Some n -> In (n, KAssign l) (fnodes (fxs s)) ->
  incl (bw bl (writes l xs)) W ->
  res s (each (fun s x => handleLvalue bl s (fst x) (snd x)) s xs) [bw bl (writes l xs)] [] (nw bl (writes l xs)) true.
Proof.
  induction xs as [|[sy b] xs IH]; intros s Rd En Hn Hw; cbn [each].
  - replace [bw bl (writes l [])] with [@nil wr] by now destruct bl.
    replace (nw bl (writes l [])) with (@nil wr) by now destruct bl. now apply res_skip with (external := external).
  - change (writes l ((sy, b) :: xs)) with ([(l, sy, b)] ++ writes l xs) in *. rewrite bw_app in *. rewrite nw_app.
    eapply res_eq; [| | |apply (res_seq nm external W s _ _ [bw bl [(l, sy, b)]] [] (nw bl [(l, sy, b)]) true
                                  [bw bl (writes l xs)] [] (nw bl (writes l xs)) true Rd)].
    + reflexivity.
    + reflexivity.
    + reflexivity.
    + discriminate.
    + apply (write_node bl s l sy b n); auto. intros w I. apply Hw, in_or_app. auto.
    + intros s' Rd' X Es. apply IH; auto.
      * rewrite (write_keeps _ _ _ _ _ Es). exact En.
      * eapply ext_in; eauto.
      * intros w I. apply Hw, in_or_app. auto.
Qed.
Lemma writes_keep bl : forall (xs : list ref) s s',
  each (fun s x => handleLvalue bl s (fst x) (snd x)) s xs = DOk s' -> anode (cur s') = anode (cur s).
Proof.
  induction xs as [|x xs IH]; intros s s'; cbn [each].
  - now intros [= <-].
  - destruct (handleLvalue bl s (fst x) (snd x)) as [s1|] eqn:E1; [|discriminate]. cbn [dbind].
    intros E. rewrite (IH _ _ E). eapply write_keeps; eauto.
Qed.

Lemma note_write bl s x : areach (cur s) = true ->
  noteReference nm automatic external (Some bl) s x =
  if automatic (fst x) then DOk s else handleLvalue bl s (fst x) (snd x).
Proof. intros E. unfold noteReference. rewrite E. reflexivity. Qed.
Lemma write_reach bl s sy b s' : handleLvalue bl s sy b = DOk s' -> areach (cur s') = areach (cur s).
Proof.
  unfold handleLvalue. destruct (anode (cur s)) as [n|] eqn:En; [|discriminate]. destruct bl.
  - unfold trackDrivers. destruct (addDrivers _ _ _ _); [|discriminate]. cbn. now intros [= <-].
  - now intros [= <-].
Qed.
Lemma note_writes_live bl : forall xs s, areach (cur s) = true ->
  each (noteReference nm automatic external (Some bl)) s xs =
  each (fun s x => handleLvalue bl s (fst x) (snd x)) s (static automatic xs).
Proof.
  induction xs as [|x xs IH]; intros s E; [reflexivity|]. cbn [each]. rewrite (note_write bl s x E).
  unfold static. cbn [filter]. fold (static automatic xs). destruct (automatic (fst x)); cbn [negb dbind each].
  - now apply IH.
  - destruct (handleLvalue bl s (fst x) (snd x)) as [s1|] eqn:E1; [|reflexivity]. cbn [dbind]. apply IH.
    now rewrite (write_reach _ _ _ _ _ E1).
Qed.
Lemma note_dead o : forall xs s, areach (cur s) = false ->
  each (noteReference nm automatic external o) s xs = DOk s.
Proof.
  induction xs as [|x xs IH]; intros s E; [reflexivity|]. cbn [each]. unfold noteReference at 1.
  rewrite E. cbn [negb dbind]. now apply IH.
Qed.

(** * Entering a node *)
Lemma enter_node s sn sc k cond : ready s -> olt (fnext (fxs s)) sn -> olt (fnext (fxs s)) sc ->
  forall s1 n, create (with_cur s (AS (adefs (cur s)) sn sc (areach (cur s)))) k = (s1, n) ->
  let s2 := updateNode s1 n cond in
  ready s2 /\ (exists ds, grow (fxs s) (fxs s2) ds [] [] /\ plain ds) /\
  adefs (cur s2) = adefs (cur s) /\ areach (cur s2) = areach (cur s) /\
  anode (cur s2) = Some n /\ In (n, k) (fnodes (fxs s2)).
Proof.
  intros (O & S & E) Ln Lc s1 n C. set (s0 := with_cur s _) in C.
  destruct (create_grow s0 k O s1 n C) as (En & Cu & O1 & G1 & Lt & In1). cbn zeta.
  assert (Q : exists ds s1', (match acond (cur s1) with Some c => emit s1 [DPlain c n] | None => s1 end) = s1' /\
              cur s1' = cur s1 /\ okF (fxs s1') /\ grow (fxs s1) (fxs s1') ds [] [] /\ plain ds).
  { destruct (acond (cur s1)) as [c|] eqn:Ec.
    - destruct (emit_grow s1 [DPlain c n]) as (Cu2 & O2 & G2).
      { repeat constructor; cbn; auto. rewrite Cu in Ec. cbn in Ec. subst sc. cbn in Lc.
        pose proof (proj1 (grow_ext _ _ _ _ _ G1)) as Lx. cbn in Lx. lia. }
      exists [DPlain c n], (emit s1 [DPlain c n]). split; [reflexivity|]. split; [exact Cu2|].
      split; [auto|]. split; [exact G2|]. intros e [<-|[]]. eauto.
    - exists [], s1. split; [reflexivity|]. split; [reflexivity|]. split; [exact O1|].
      split; [apply grow_refl|]. intros e []. }
  destruct Q as (ds & s1' & Q0 & Q1 & Q2 & Q3 & Q4). unfold updateNode. rewrite Q0.
  cbn [with_cur cur fxs adefs areach anode].
  pose proof (grow_trans _ _ _ _ _ _ _ _ _ G1 Q3) as G. cbn [app] in G.
  pose proof (grow_ext _ _ _ _ _ G) as X. cbn [s0 with_cur fxs] in X.
  assert (Ln2 : (n < fnext (fxs s1'))%nat) by (pose proof (proj1 (grow_ext _ _ _ _ _ Q3)); lia).
  rewrite Q1, Cu. cbn [s0 with_cur cur fxs adefs areach anode].
  split; [|split; [|split; [|split; [|split]]]]; auto.
  - split; [exact Q2|]. cbn [cur fxs]. split; [|eapply olt_ext; eauto].
    apply (okSA_ext W _ _ _ X) in S. destruct S as [S1 S2 S3 S4]. split; auto; cbn; auto.
    destruct cond; cbn; auto.
  - exists ds. split; [exact G|exact Q4].
  - eapply ext_in; [|exact In1]. eapply grow_ext; eauto.
Qed.

(** * Assignments *)
Lemma seg_ok l bl sn sc s g : ready s -> olt (fnext (fxs s)) sn -> olt (fnext (fxs s)) sc ->
  incl (seg_writes l bl g) W ->
  res s (do_seg nm automatic external l bl sn sc s g) [seg_writes l bl g]
    (reads_at [seg_writes l bl g] (KAssign l) (flat_map (src_refs automatic) (srhs g)))
    (nw bl (writes l (slhs g))) true.
Proof.
  intros Rd Ln Lc Hw. unfold do_seg.
  destruct (create _ (KAssign l)) as [s1 n] eqn:C.
  destruct (enter_node s sn sc (KAssign l) false Rd Ln Lc s1 n C) as (Rd2 & G & Q1 & Q2 & Q3 & Q4).
  apply (res_pre nm external W s (updateNode s1 n false)); auto; [apply Rd2|].
  change (seg_writes l bl g) with (bw bl (writes l (slhs g))) in *.
  eapply res_eq; [| | |apply (res_seq nm external W _ _ _ [bw bl (writes l (slhs g))] [] (nw bl (writes l (slhs g))) true
     [[]] (reads_at [[]] (KAssign l) (flat_map (src_refs automatic) (srhs g))) [] true Rd2)].
  - unfold cat. cbn. now rewrite app_nil_r.
  - now rewrite after_reads.
  - now rewrite app_nil_r.
  - discriminate.
  - now apply writes_node with (n := n).
  - intros s' Rd' X Es. apply rhs_reads with (m := n); auto.
    + rewrite (writes_keep _ _ _ _ Es). exact Q3.
    + eapply ext_in; eauto.
Qed.
Lemma segs_ok l bl sn sc : forall gs s, ready s -> olt (fnext (fxs s)) sn -> olt (fnext (fxs s)) sc ->
  incl (flat_map (seg_writes l bl) gs) W ->
  res s (each (do_seg nm automatic external l bl sn sc) s gs) [flat_map (seg_writes l bl) gs]
    (seg_reads automatic l bl gs) (nw bl (flat_map (fun g => writes l (slhs g)) gs)) true.
Proof.
  induction gs as [|g gs IH]; intros s Rd Ln Lc Hw; cbn [each flat_map seg_reads].
  - replace (nw bl []) with (@nil wr) by now destruct bl. now apply res_skip with (external := external).
  - cbn [flat_map] in Hw. rewrite nw_app.
    eapply res_eq; [| | |apply (res_seq nm external W s _ _ [seg_writes l bl g]
        (reads_at [seg_writes l bl g] (KAssign l) (flat_map (src_refs automatic) (srhs g)))
        (nw bl (writes l (slhs g))) true [flat_map (seg_writes l bl) gs]
        (seg_reads automatic l bl gs) (nw bl (flat_map (fun g => writes l (slhs g)) gs)) true Rd)].
    + reflexivity.
    + reflexivity.
    + reflexivity.
    + discriminate.
    + apply seg_ok; auto. intros w I. apply Hw, in_or_app. auto.
    + intros s' Rd' X Es. apply IH; auto; try (eapply olt_ext; eauto).
      intros w I. apply Hw, in_or_app. auto.
Qed.

Lemma legacy_ok s l bl lhs rhs : ready s -> incl (bw bl (writes l lhs)) W ->
  res s (do_legacy nm automatic external s l bl lhs rhs) [bw bl (writes l (static automatic lhs))]
    (reads_at [bw bl (writes l (static automatic lhs))] (KAssign l) (static automatic rhs))
    (nw bl (writes l (static automatic lhs))) true.
Proof.
  intros Rd Hw. unfold do_legacy.
  destruct (create s (KAssign l)) as [s1 n] eqn:C.
  destruct (enter_node s (anode (cur s)) (acond (cur s)) (KAssign l) false Rd) with (s1 := s1) (n := n)
    as (Rd2 & G & Q1 & Q2 & Q3 & Q4).
  { apply Rd. } { apply Rd. }
  { rewrite <- C. f_equal. destruct s as [[? ? ? ?] ?]; reflexivity. }
  apply (res_pre nm external W s (updateNode s1 n false)); auto; [apply Rd2|].
  destruct (areach (cur (updateNode s1 n false))) eqn:Dr.
  - rewrite note_writes_live by exact Dr. set (xs := static automatic lhs) in *.
    eapply res_eq; [| | |apply (res_seq nm external W _ _ _ [bw bl (writes l xs)] [] (nw bl (writes l xs)) true
       [[]] (reads_at [[]] (KAssign l) (static automatic rhs)) [] true Rd2)].
    + unfold cat. cbn. now rewrite app_nil_r.
    + now rewrite after_reads.
    + now rewrite app_nil_r.
    + discriminate.
    + apply writes_node with (n := n); auto. intros w I. apply Hw. unfold xs, static in I.
      destruct bl; [|exact I]. cbn [bw] in *. apply in_map_iff in I. destruct I as (x & <- & I).
      apply filter_In in I. apply in_map_iff. exists x. tauto.
    + intros s' Rd' X Es. apply note_reads with (m := n); auto. intros _. split.
      * rewrite (writes_keep _ _ _ _ Es). exact Q3.
      * eapply ext_in; eauto.
  - rewrite note_dead by exact Dr. cbn [dbind]. rewrite note_dead by exact Dr.
    destruct Rd2 as (O2 & S2 & _). apply (res_dead nm W _ _ _ _ _ _ [] [] []); auto. apply grow_refl.
Qed.

(** * Branches *)
Definition resb (B : base) (rb : bool) (f : fx) (r : dres st) (T : list trace) (R : list rd) (N : trace) (lv : bool) : Prop :=
  exists s', r = DOk s' /\ okF (fxs s') /\ arm W B rb (fxs s') (cur s') T /\ tr B rb f (fxs s') R N lv.

Lemma res_at f a s r T R N lv : okF f -> okSA W f a -> ext f (fxs s) ->
  res (with_cur s a) r T R N lv -> resb (drv f a) (areach a) (fxs s) r T R N lv.
Proof.
  intros O S X (s' & E & O' & M & Tr). cbn [with_cur cur fxs] in M, Tr.
  assert (Hb : forall sy i l, drv (fxs s) a sy i l <-> drv f a sy i l).
  { intros sy i l. symmetry. now apply drv_ext; [| |apply S]. }
  exists s'. split; [exact E|]. split; [exact O'|]. split; [eapply arm_base|eapply tr_base]; eauto.
Qed.
Lemma res_unreach B rb s r T R N lv N' :
  res (with_cur s unreachableState) r T R N lv -> resb B rb (fxs s) r [] [] N' false.
Proof.
  intros (s' & E & O' & M & Tr). cbn [with_cur cur fxs unreachableState areach] in M, Tr.
  exists s'. split; [exact E|]. split; [exact O'|]. split.
  - destruct M as [M1 M2 _ _]. specialize (M2 eq_refl). split; auto.
    + rewrite M2. intros _. split; [discriminate|congruence].
    + congruence.
  - destruct (tr_grow _ _ _ _ _ _ _ _ _ Tr) as (ds & ps & ls & G). exists ds, ps, ls. split; [exact G|].
    split; [easy|]. split; [easy|]. repeat split; discriminate.
Qed.

(** The end of a two-way branch. *)
Lemma resb_join B rb f r T1 R N lv other T2 : resb B rb f r T1 R N lv ->
  (forall s, r = DOk s -> okF (fxs s) -> ext f (fxs s) -> arm W B rb (fxs s) (other s) T2) ->
  resb B rb f (dbind r (fun s => joinState s (other s))) (T1 ++ T2) R N lv.
Proof.
  intros (s1 & E & O1 & M1 & Tr) H. rewrite E. cbn [dbind].
  destruct (joinState_ok W B rb s1 (other s1) T1 T2 A O1 M1) as (s2 & ds & E2 & O2 & G & P & M).
  { apply H; auto. eapply tr_ext; eauto. }
  exists s2. split; [exact E2|]. split; [exact O2|]. split; [exact M|].
  pose proof (tr_app nm W B rb f (fxs s1) (fxs s2) R N lv [] [] true O1 Tr) as Q.
  rewrite !app_nil_r, andb_true_r in Q. apply Q. eapply tr_plain; eauto.
Qed.
Lemma resb_same B rb f r T T' R N lv : (forall t, In t T <-> In t T') ->
  resb B rb f r T R N lv -> resb B rb f r T' R N lv.
Proof.
  intros H (s1 & E & O1 & M1 & Tr). exists s1. split; [exact E|]. split; [exact O1|]. split; [|exact Tr].
  eapply arm_same; eauto.
Qed.
(** Another branch from the same entry. *)
Lemma resb_other B rb f r T1 R1 N1 l1 g T2 R2 N2 l2 : resb B rb f r T1 R1 N1 l1 ->
  (forall s, r = DOk s -> okF (fxs s) -> ext f (fxs s) -> resb B rb (fxs s) (g s) T2 R2 N2 l2) ->
  resb B rb f (dbind r (fun s => dbind (g s) (fun s' => joinState s' (cur s)))) (T1 ++ T2)
    (R1 ++ R2) (N1 ++ N2) (l1 && l2).
Proof.
  intros (s1 & E & O1 & M1 & Tr) H. rewrite E. cbn [dbind].
  assert (X : ext f (fxs s1)) by (eapply tr_ext; eauto).
  pose proof (H s1 E O1 X) as H1.
  apply (resb_join B rb (fxs s1) (g s1) T2 R2 N2 l2 (fun _ => cur s1) T1) in H1.
  - apply (resb_same _ _ _ _ _ (T1 ++ T2)) in H1; [|intros t; rewrite !in_app_iff; tauto].
    destruct H1 as (s2 & E2 & O2 & M2 & Tr2). exists s2. split; [exact E2|]. split; [exact O2|].
    split; [exact M2|]. exact (tr_app nm W B rb f (fxs s1) (fxs s2) R1 N1 l1 R2 N2 l2 O1 Tr Tr2).
  - intros s _ Os Xs. now apply (arm_ext W B rb (fxs s1) (fxs s)).
Qed.

Lemma live_paths :
  (forall p, live p = true -> paths automatic p <> []) /\
  (forall c, clive c = true -> c <> CFull -> cpaths automatic c <> []).
Proof.
  apply stmt_clist; cbn [live clive paths cpaths]; try discriminate; try congruence.
  - intros p IHp q IHq H. apply andb_true_iff in H. apply cat_ne. split; [apply IHp|apply IHq]; tauto.
  - intros l [k|] c t IH; [discriminate|]. intros H Q. apply app_eq_nil in Q. destruct Q. discriminate.
  - intros l [k|] c t IHt e IHe; [discriminate|]. intros H Q. apply andb_true_iff in H.
    apply app_eq_nil in Q. destruct Q as [Q _]. revert Q. now apply IHt.
  - intros l c items IH. destruct items; [discriminate| |]; intros H; apply IH; auto; discriminate.
  - auto.
  - intros c p IHp r IHr H _ Q. apply andb_true_iff in H. apply app_eq_nil in Q. destruct Q as [Q _].
    revert Q. now apply IHp.
Qed.

(** * Statements *)
Lemma cond_ok s l c (k : nat -> nk) : ready s ->
  res s (let '(s1, n) := create s (k l) in each (noteReference nm automatic external None) (updateNode s1 n true) c)
    [[]] (reads_at [[]] (k l) (static automatic c)) [] true /\
  forall s', (let '(s1, n) := create s (k l) in each (noteReference nm automatic external None) (updateNode s1 n true) c) = DOk s' ->
    exists n, anode (cur s') = Some n /\ In (n, k l) (fnodes (fxs s')).
Proof.
  intros Rd. destruct (create s (k l)) as [s1 n] eqn:C.
  destruct (enter_node s (anode (cur s)) (acond (cur s)) (k l) true Rd) with (s1 := s1) (n := n)
    as (Rd2 & G & Q1 & Q2 & Q3 & Q4).
  { apply Rd. } { apply Rd. }
  { rewrite <- C. f_equal. destruct s as [[? ? ? ?] ?]; reflexivity. }
  assert (H : res (updateNode s1 n true) (each (noteReference nm automatic external None) (updateNode s1 n true) c)
                [[]] (reads_at [[]] (k l) (static automatic c)) [] true).
  { apply note_reads with (m := n); auto. intros _. auto. }
  split.
  - apply (res_pre nm external W s (updateNode s1 n true)); auto. apply Rd2.
  - intros s' E. exists n. destruct H as (s2 & E2 & _ & _ & Tr). rewrite E in E2. injection E2 as <-. split.
    + assert (Qu : quiet (updateNode s1 n true)
        (each (noteReference nm automatic external None) (updateNode s1 n true) c)).
      { apply quiet_each. apply quiet_note. }
      now rewrite (Qu _ E).
    + eapply ext_in; [eapply tr_ext; eauto|exact Q4].
Qed.
Lemma enter_if_ok s l k c : ready s ->
  res s (enter_if nm automatic external s l k c) [[]]
    (match k with None => reads_at [[]] (KCond l) (static automatic c) | Some _ => [] end) []
    (match k with None => true | Some _ => false end).
Proof.
  intros Rd. unfold enter_if. destruct k as [k|].
  - now apply note_any with (external := external).
  - pose proof (proj1 (cond_ok s l c KCond Rd)) as H. destruct (create s (KCond l)). exact H.
Qed.

Lemma ready_ext s s' a : ready s -> ext (fxs s) (fxs s') -> okF (fxs s') -> okSA W (fxs s) a -> ready (with_cur s' a).
Proof.
  intros (O & S & E) X O' Sa. split; [exact O'|]. cbn. split; [eapply okSA_ext; eauto|eapply olt_ext; eauto].
Qed.

Definition exec_spec (p : stmt) : Prop := forall s, ready s -> incl (all_writes p) W ->
  res s (exec nm automatic external s p) (paths automatic p) (reads automatic p) (nb_writes automatic p) (live p).

(** A branch taken, and a branch that a constant condition excludes. *)
Lemma branch_taken p s s' : exec_spec p -> incl (all_writes p) W -> ready s -> ext (fxs s) (fxs s') -> okF (fxs s') ->
  resb (drv (fxs s) (cur s)) (areach (cur s)) (fxs s') (exec nm automatic external (with_cur s' (cur s)) p)
    (paths automatic p) (reads automatic p) (nb_writes automatic p) (live p).
Proof.
  intros H Hw Rd X O'. pose proof Rd as (O & S & E). apply res_at; auto. apply H; auto. now apply ready_ext with (s := s).
Qed.
Lemma branch_excluded p s s' N : exec_spec p -> incl (all_writes p) W -> ready s -> ext (fxs s) (fxs s') -> okF (fxs s') ->
  resb (drv (fxs s) (cur s)) (areach (cur s)) (fxs s') (exec nm automatic external (with_cur s' unreachableState) p)
    [] [] N false.
Proof.
  intros H Hw Rd X O'. eapply res_unreach. apply H; auto. apply ready_ext with (s := s); auto. apply okSA_nil.
Qed.

Definition paths_if (k : option bool) (T : list trace) : list trace := match k with Some false => [] | _ => T end.
Definition paths_else (k : option bool) (T : list trace) : list trace := match k with Some true => [] | _ => T end.

Lemma if_ok k t s : exec_spec t -> incl (all_writes t) W -> ready s ->
  res s (let '(inT, inF) := branch_in k (cur s) in
         do s2 <- exec nm automatic external (with_cur s inT) t; joinState s2 inF)
    (match k with Some false => [] | _ => paths automatic t end ++ match k with Some true => [] | _ => [[]] end)
    (match k with Some false => [] | _ => reads automatic t end) (nb_writes automatic t)
    (match k with None => live t | Some _ => false end).
Proof.
  intros H Hw Rd. pose proof Rd as (O & S & E).
  pose proof (branch_taken t s s H Hw Rd (ext_refl _) O) as Ht.
  pose proof (branch_excluded t s s (nb_writes automatic t) H Hw Rd (ext_refl _) O) as Hd.
  destruct k as [[|]|]; cbn [branch_in].
  - apply (resb_join _ _ _ _ _ _ _ false (fun _ => unreachableState) []).
    + destruct Ht as (s' & E' & O' & M & Tr). exists s'. repeat (split; [assumption|]).
      eapply tr_weaken; [|exact Tr]. discriminate.
    + intros. apply arm_unreachable.
  - apply (resb_join _ _ _ _ _ _ _ false (fun _ => cur s) [[]] Hd).
    intros s' _ O' X. apply (arm_ext W _ _ (fxs s)); auto. now apply arm_self.
  - apply (resb_join _ _ _ _ _ _ _ (live t) (fun _ => cur s) [[]] Ht).
    intros s' _ O' X. apply (arm_ext W _ _ (fxs s)); auto. now apply arm_self.
Qed.

Lemma resb_weaken B rb f r T R N lv lv' : (lv' = true -> lv = true) -> resb B rb f r T R N lv -> resb B rb f r T R N lv'.
Proof.
  intros H (s' & E' & O' & M & Tr). exists s'. repeat (split; [assumption|]). eapply tr_weaken; eauto.
Qed.

Lemma ifelse_ok k t e s : exec_spec t -> exec_spec e -> incl (all_writes t) W -> incl (all_writes e) W -> ready s ->
  res s (let '(inT, inF) := branch_in k (cur s) in
         do s2 <- exec nm automatic external (with_cur s inT) t;
         do s3 <- exec nm automatic external (with_cur s2 inF) e; joinState s3 (cur s2))
    (match k with Some false => [] | _ => paths automatic t end ++ match k with Some true => [] | _ => paths automatic e end)
    (match k with Some false => [] | _ => reads automatic t end ++ match k with Some true => [] | _ => reads automatic e end)
    (nb_writes automatic t ++ nb_writes automatic e)
    (match k with None => live t && live e | Some _ => false end).
Proof.
  intros Ht He Hwt Hwe Rd. pose proof Rd as (O & S & E).
  pose proof (branch_taken t s s Ht Hwt Rd (ext_refl _) O) as Bt.
  pose proof (branch_excluded t s s (nb_writes automatic t) Ht Hwt Rd (ext_refl _) O) as Bd.
  destruct k as [[|]|]; cbn [branch_in].
  - apply (resb_weaken _ _ _ _ _ _ _ (live t && false)); [discriminate|].
    apply (resb_other _ _ _ _ _ _ _ (live t) (fun s2 => exec nm automatic external (with_cur s2 unreachableState) e)
             [] [] (nb_writes automatic e) false Bt).
    intros s' _ O' X. now apply branch_excluded.
  - apply (resb_weaken _ _ _ _ _ _ _ (false && live e)); [discriminate|].
    apply (resb_other _ _ _ _ _ _ _ false (fun s2 => exec nm automatic external (with_cur s2 (cur s)) e)
             (paths automatic e) (reads automatic e) (nb_writes automatic e) (live e) Bd).
    intros s' _ O' X. now apply branch_taken.
  - apply (resb_other _ _ _ _ _ _ _ (live t) (fun s2 => exec nm automatic external (with_cur s2 (cur s)) e)
             (paths automatic e) (reads automatic e) (nb_writes automatic e) (live e) Bt).
    intros s' _ O' X. now apply branch_taken.
Qed.

Lemma incl_l {X} (a b c : list X) : incl (a ++ b) c -> incl a c.
Proof. intros H x I. apply H, in_or_app. auto. Qed.
Lemma incl_r {X} (a b c : list X) : incl (a ++ b) c -> incl b c.
Proof. intros H x I. apply H, in_or_app. auto. Qed.

(** One more item of a case, after [Ta]. *)
Lemma item_ok f a0 s acc Ta r T R N lv : ext f (fxs s) ->
  arm W (drv f a0) (areach a0) (fxs s) acc Ta -> okF (fxs s) ->
  resb (drv f a0) (areach a0) (fxs s) r T R N lv ->
  resb (drv f a0) (areach a0) (fxs s) (dbind r (fun s1 => joinState (with_cur s1 acc) (cur s1))) (Ta ++ T) R N lv.
Proof.
  intros X Ma O (s1 & E & O1 & M1 & Tr). rewrite E. cbn [dbind].
  assert (X1 : ext (fxs s) (fxs s1)) by (eapply tr_ext; eauto).
  destruct (joinState_ok W (drv f a0) (areach a0) (with_cur s1 acc) (cur s1) Ta T A) as (s2 & ds & E2 & O2 & G & P & M); auto.
  { cbn [with_cur cur fxs]. now apply (arm_ext W _ _ (fxs s) (fxs s1)). }
  cbn [with_cur cur fxs] in G.
  exists s2. split; [exact E2|]. split; [exact O2|]. split; [exact M|].
  pose proof (tr_app nm W (drv f a0) (areach a0) (fxs s) (fxs s1) (fxs s2) R N lv [] [] true O1 Tr) as Q.
  rewrite !app_nil_r, andb_true_r in Q. apply Q. eapply tr_plain; eauto.
Qed.

Lemma one_ne : [@nil wr] <> [].
Proof. discriminate. Qed.
Lemma exec_ok_mut :
  (forall p, exec_spec p) /\
  (forall c l s a0 acc Ta f, okF f -> okSA W f a0 -> ext f (fxs s) -> okF (fxs s) -> olt (fnext (fxs s)) external ->
     incl (call_writes c) W ->
     (areach a0 = true -> exists m, anode a0 = Some m /\ In (m, KCase l) (fnodes f)) ->
     arm W (drv f a0) (areach a0) (fxs s) acc Ta ->
     resb (drv f a0) (areach a0) (fxs s) (exec_items nm automatic external s a0 acc c) (Ta ++ cpaths automatic c)
       (creads automatic l c) (cnb_writes automatic c) (clive c)).
Proof.
  apply stmt_clist; unfold exec_spec;
    cbn [exec exec_items paths cpaths reads creads nb_writes cnb_writes live clive all_writes call_writes].
  - intros s Rd _. now apply res_skip with (external := external).
  - intros l bl gs s Rd Hw. unfold do_aligned. change (if bl then [] else flat_map (fun g => writes l (slhs g)) gs)
      with (nw bl (flat_map (fun g => writes l (slhs g)) gs)). apply segs_ok; auto; apply Rd.
  - intros l bl lhs rhs s Rd Hw. now apply (legacy_ok s l bl lhs rhs).
  - intros p IHp q IHq s Rd Hw. apply (res_seq nm external W); auto.
    + intros _ L. now apply (proj1 live_paths).
    + apply IHp; [exact Rd|]. eapply incl_l; eauto.
    + intros s' Rd' X Es. apply IHq; [exact Rd'|]. eapply incl_r; eauto.
  - intros l k c t IH s Rd Hw.
    pose proof (res_seq nm external W s _ _ _ _ _ _ _ _ _ _ Rd (fun _ _ => one_ne)
                  (enter_if_ok s l k c Rd)
                  (fun s' Rd' _ _ => if_ok k t s' IH Hw Rd')) as H.
    rewrite cat_nil_l, after_nil in H. cbn [app] in H. destruct k; exact H.
  - intros l k c t IHt e IHe s Rd Hw.
    pose proof (res_seq nm external W s _ _ _ _ _ _ _ _ _ _ Rd (fun _ _ => one_ne)
                  (enter_if_ok s l k c Rd)
                  (fun s' Rd' _ _ => ifelse_ok k t e s' IHt IHe (incl_l _ _ _ Hw) (incl_r _ _ _ Hw) Rd')) as H.
    rewrite cat_nil_l, after_nil in H. cbn [app] in H. destruct k; exact H.
  - intros l c items IH s Rd Hw. destruct (cond_ok s l c KCase Rd) as [Hc Hk].
    assert (L : forall lv, (match items with CFull => false | _ => lv end = true) -> lv = true)
      by (intros lv; destruct items; auto; discriminate).
    eapply (res_seq nm external W s _ (fun s1 => exec_items nm automatic external s1 (cur s1) unreachableState items)) in Hc;
      [|exact Rd|discriminate|].
    + rewrite cat_nil_l, after_nil in Hc. cbn [app] in Hc.
      eapply (resb_weaken _ _ _ _ _ _ _ _ _ (L _)). exact Hc.
    + intros s' Rd' X Es. pose proof Rd' as (O' & S' & E').
      apply (IH l s' (cur s') unreachableState [] (fxs s')); auto.
      * apply ext_refl.
      * apply arm_unreachable.
  - intros l s a0 acc Ta f O S X Os E _ Hk Ma. rewrite app_nil_r. exists (with_cur s acc). split; [reflexivity|].
    split; [exact Os|]. split; [exact Ma|apply tr_refl].
  - intros p IH l s a0 acc Ta f O S X Os E Hw Hk Ma.
    apply item_ok; auto. apply res_at; auto. apply IH; [|exact Hw].
    split; [exact Os|]. cbn. split; [eapply okSA_ext; eauto|exact E].
  - intros c p IHp r IHr l s a0 acc Ta f O S X Os E Hw Hk Ma.
    assert (Rd : ready (with_cur s a0)).
    { split; [exact Os|]. cbn. split; [eapply okSA_ext; eauto|exact E]. }
    assert (H : resb (drv f a0) (areach a0) (fxs s)
       (do s1 <- each (noteReference nm automatic external None) (with_cur s a0) c; exec nm automatic external s1 p)
       (paths automatic p) (reads_at [[]] (KCase l) (static automatic c) ++ reads automatic p) (nb_writes automatic p) (live p)).
    { apply res_at; auto.
      assert (H0 : res (with_cur s a0) (each (noteReference nm automatic external None) (with_cur s a0) c) [[]]
                (reads_at [[]] (KCase l) (static automatic c)) [] true).
      { destruct (areach a0) eqn:Ea.
        - destruct (Hk eq_refl) as (m & Em & Im). apply note_reads with (m := m); auto. intros _. split; [exact Em|].
          cbn. eapply ext_in; eauto.
        - rewrite note_dead by exact Ea. apply (res_dead nm W _ _ _ _ _ _ [] [] []); auto.
          + apply Rd.
          + apply grow_refl. }
      eapply (res_seq nm external W (with_cur s a0) _ (fun s1 => exec nm automatic external s1 p)) in H0;
        [|exact Rd|discriminate|].
      - rewrite cat_nil_l, after_nil in H0. cbn [app] in H0. exact H0.
      - intros s' Rd' X' Es. apply IHp; [exact Rd'|]. eapply incl_l; eauto. }
    apply (item_ok f a0 s acc Ta) in H; auto.
    rewrite dbind_assoc in H.
    destruct H as (s3 & E3 & O3 & M3 & Tr3).
    assert (Es : exec_items nm automatic external s a0 acc (CCons c p r) =
                 exec_items nm automatic external s3 a0 (cur s3) r).
    { change (exec_items nm automatic external s a0 acc (CCons c p r)) with
        (do s1 <- each (noteReference nm automatic external None) (with_cur s a0) c;
         do s2 <- exec nm automatic external s1 p;
         do s3 <- joinState (with_cur s2 acc) (cur s2);
         exec_items nm automatic external s3 a0 (cur s3) r). destruct (each _ _ c) as [s1|]; [|discriminate]. cbn [dbind] in *.
      destruct (exec _ _ _ s1 p) as [s2|]; [|discriminate]. cbn [dbind] in *.
      rewrite E3. reflexivity. }
    change (resb (drv f a0) (areach a0) (fxs s) (exec_items nm automatic external s a0 acc (CCons c p r))
      (Ta ++ paths automatic p ++ cpaths automatic r)
      (reads_at [[]] (KCase l) (static automatic c) ++ reads automatic p ++ creads automatic l r)
      (nb_writes automatic p ++ cnb_writes automatic r) (live p && clive r)).
    rewrite Es.
    assert (X3 : ext (fxs s) (fxs s3)) by (eapply tr_ext; eauto).
    destruct (IHr l s3 a0 (cur s3) (Ta ++ paths automatic p) f) as (s4 & E4 & O4 & M4 & Tr4); auto.
    + eapply ext_trans; eauto.
    + eapply olt_ext; eauto.
    + eapply incl_r; eauto.
    + exists s4. split; [exact E4|]. split; [exact O4|]. rewrite app_assoc. split; [exact M4|].
      pose proof (tr_app nm W _ _ _ _ _ _ _ _ _ _ _ O3 Tr3 Tr4) as Q. rewrite <- app_assoc in Q. exact Q.
Qed.
Definition exec_ok p : exec_spec p := proj1 exec_ok_mut p.
End Analysis.
