(** Proofs about the data-flow analysis: joins of arbitrary states, control edges. *)
From Coq Require Import Sorted.
From Verif Require Import Base M_Graph M_Range M_Netlist M_Annot M_Interval M_Heap M_Drivers M_Pending
  M_DFA S_Interval S_Drivers S_DFA P_Interval P_Heap P_Drivers P_DriversX P_DFA P_DFA2 P_DFA3 P_DFA4 P_DFA5.
Local Open Scope Z_scope.

Lemma driven_has a sy i n : driven_by a sy i n <-> hasA a sy i n.
Proof.
  unfold driven_by, hasA, has, inside. split; intros (x & l & H); exists x, l; tauto.
Qed.

(** * Joins keep everything *)
Definition okG (a : astate) : Prop := forall sy, dok (defs a sy) /\ allvalid (defs a sy).

Lemma track_merge a sy b dl : okG a -> exists a', trackDrivers a sy b dl true = DOk a' /\ okG a' /\
  (forall sy' i n, hasA a sy' i n -> hasA a' sy' i n) /\
  (forall i n, lower b <= i <= upper b -> In n dl -> hasA a' sy i n).
Proof.
  intros O. destruct (O sy) as [K V].
  destruct (run_merge [(b, dl, true)] (defs a sy) K V) as (d & E & Kd & Vd & H1 & H2).
  { intros b' dl' m [[= <- <- <-]|[]]. reflexivity. }
  cbn [run_calls] in E. unfold trackDrivers.
  destruct (addDrivers (defs a sy) b dl true) as [d'|]; [|discriminate]. cbn [dbind] in *. injection E as ->.
  eexists. split; [reflexivity|].
  assert (D : forall sy', defs (AS (put_defs (adefs a) sy d) (anode a) (acond a) (areach a)) sy' =
                     if Nat.eqb sy' sy then d else defs a sy').
  { intros sy'. unfold defs. cbn [adefs]. apply nth_put. }
  split; [|split].
  - intros sy'. rewrite D. destruct (Nat.eqb sy' sy); auto.
  - intros sy' i n H. unfold hasA in *. rewrite D. destruct (Nat.eqb_spec sy' sy) as [->|]; auto.
  - intros i n Bi I. unfold hasA. rewrite D, Nat.eqb_refl. apply (H2 b dl true); auto. now left.
Qed.

Lemma merge_entries_keep sy d : allvalid d -> forall its a, (forall x, In x its -> In x (ivs d)) ->
  (forall x, In x its -> ilo x <= ihi x) -> okG a ->
  exists a', merge_entries a sy d its = DOk a' /\ okG a' /\
    (forall sy' i n, hasA a sy' i n -> hasA a' sy' i n) /\
    (forall x l i n, In x its -> inside x i -> get (lists d) (ival x) = Some l -> In n l -> hasA a' sy i n).
Proof.
  intros V. induction its as [|x its IH]; intros a Hi Hl O; cbn [merge_entries].
  - exists a. split; [reflexivity|]. split; [exact O|]. split; [auto|]. intros x l i n [].
  - unfold getDriverList. destruct (get (lists d) (ival x)) as [l|] eqn:G; [|destruct (V x (Hi x (or_introl eq_refl)) G)].
    cbn [dbind]. pose proof (Hl x (or_introl eq_refl)) as Lx.
    destruct (track_merge a sy (Range (ilo x) (ihi x)) l O) as (a1 & E1 & O1 & H1 & H2). rewrite E1. cbn [dbind].
    destruct (IH a1) as (a2 & E2 & O2 & H3 & H4); auto.
    { intros y I. apply Hi. now right. } { intros y I. apply Hl. now right. }
    exists a2. split; [exact E2|]. split; [exact O2|]. split; [auto|].
    intros y l' i n [<-|I] Bi Gy In'; [|eapply H4; eauto]. apply H3, H2.
    + unfold inside in Bi. rewrite lower_range, upper_range by exact Lx. lia.
    + congruence.
Qed.
Lemma merge_defs_keep : forall ds k a, (forall d, In d ds -> dok d /\ allvalid d) -> okG a ->
  exists a', merge_defs a k ds = DOk a' /\ okG a' /\
    (forall sy i n, hasA a sy i n -> hasA a' sy i n) /\
    (forall j i n, has (nth j ds dm_empty) i n -> hasA a' (k + j) i n).
Proof.
  induction ds as [|d ds IH]; intros k a Hd O; cbn [merge_defs].
  - exists a. split; [reflexivity|]. split; [exact O|]. split; [auto|].
    intros j i n H. exfalso. destruct j; destruct H as (x & l & [] & _).
  - destruct (Hd d (or_introl eq_refl)) as [K V].
    destruct (merge_entries_keep k d V (ivs d) a) as (a1 & E1 & O1 & H1 & H2); auto.
    { intros x I. apply (proj1 (proj1 K) x I). }
    rewrite E1. cbn [dbind]. destruct (IH (S k) a1) as (a2 & E2 & O2 & H3 & H4); auto.
    { intros d' I. apply Hd. now right. }
    exists a2. split; [exact E2|]. split; [exact O2|]. split; [auto|].
    intros [|j] i n H.
    + rewrite Nat.add_0_r. cbn in H. destruct H as (x & l & I & Bi & G & N). apply H3. eapply H2; eauto.
    + replace (k + S j)%nat with (S k + j)%nat by lia. apply H4. exact H.
Qed.

Lemma track_keeps a sy b dl m a' : trackDrivers a sy b dl m = DOk a' ->
  anode a' = anode a /\ acond a' = acond a /\ areach a' = areach a.
Proof.
  unfold trackDrivers. destruct (addDrivers _ _ _ _); [|discriminate]. cbn. intros [= <-]. auto.
Qed.
Lemma entries_keep sy d : forall its a a', merge_entries a sy d its = DOk a' ->
  anode a' = anode a /\ acond a' = acond a /\ areach a' = areach a.
Proof.
  induction its as [|x its IH]; intros a a'; cbn [merge_entries]; [intros [= <-]; auto|].
  destruct (getDriverList d (ival x)); [|discriminate]. cbn [dbind].
  destruct (trackDrivers a sy _ _ true) as [a1|] eqn:E1; [|discriminate]. cbn [dbind]. intros E.
  destruct (IH _ _ E) as (-> & -> & ->). eapply track_keeps; eauto.
Qed.
Lemma defs_keep : forall ds k a a', merge_defs a k ds = DOk a' ->
  anode a' = anode a /\ acond a' = acond a /\ areach a' = areach a.
Proof.
  induction ds as [|d ds IH]; intros k a a'; cbn [merge_defs]; [intros [= <-]; auto|].
  destruct (merge_entries a k d (ivs d)) as [a1|] eqn:E1; [|discriminate]. cbn [dbind]. intros E.
  destruct (IH _ _ _ E) as (-> & -> & ->). eapply entries_keep; eauto.
Qed.

Lemma nth_defs_in a : forall d, In d (adefs a) -> exists sy, defs a sy = d.
Proof. intros d I. destruct (In_nth _ _ dm_empty I) as (j & _ & E). exists j. exact E. Qed.

Lemma mergeNodes_total s x y : exists s' z, mergeNodes s x y = (s', z) /\ cur s' = cur s.
Proof.
  unfold mergeNodes, b_merge. destruct x as [p|], y as [q|]; try (eexists _, _; split; reflexivity).
  destruct (Nat.eqb p q); eexists _, _; split; reflexivity.
Qed.

Lemma join_keeps s other : okG (cur s) -> okG other -> areach (cur s) = areach other ->
  exists s', joinState s other = DOk s' /\ areach (cur s') = areach other /\
    forall sy i n, hasA (cur s) sy i n \/ hasA other sy i n -> hasA (cur s') sy i n.
Proof.
  intros O1 O2 E. unfold joinState. rewrite E, Bool.eqb_reflx. unfold mergeStates.
  destruct (merge_defs_keep (adefs other) 0 (cur s)) as (a & Ea & Oa & H1 & H2); auto.
  { intros d I. destruct (nth_defs_in _ _ I) as (sy & <-). apply O2. }
  rewrite Ea. cbn [dbind]. destruct (defs_keep _ _ _ _ Ea) as (_ & _ & Er).
  destruct (mergeNodes_total (with_cur s a) (anode a) (anode other)) as (s1 & n & -> & _).
  destruct (mergeNodes_total s1 (acond a) (acond other)) as (s2 & c & -> & _).
  eexists. split; [reflexivity|]. cbn [with_cur cur areach]. split; [congruence|].
  intros sy i k [H|H]; [exact (H1 sy i k H)|exact (H2 sy i k H)].
Qed.

(** States as histories. *)
Lemma track_all_dok : forall h a a', (forall sy, dok (defs a sy)) -> track_all a h = DOk a' -> forall sy, dok (defs a' sy).
Proof.
  induction h as [|[[[sy0 b] dl] m] h IH]; intros a a' K; cbn [track_all]; [now intros [= <-]|].
  destruct (trackDrivers a sy0 b dl m) as [a1|] eqn:E; [|discriminate]. cbn [dbind]. apply IH.
  unfold trackDrivers in E. destruct (addDrivers (defs a sy0) b dl m) as [d|] eqn:Ed; [|discriminate].
  cbn [dbind] in E. injection E as <-. intros sy. unfold defs. cbn [adefs]. rewrite nth_put.
  destruct (Nat.eqb_spec sy sy0) as [->|]; [|apply K].
  destruct (run_cov [(b, dl, m)] (defs a sy0) (K sy0)) as [Q|(d' & Q & Kd & _)]; cbn [run_calls] in Q;
    rewrite Ed in Q; cbn [dbind] in Q; [discriminate|]. injection Q as ->. exact Kd.
Qed.
Lemma track_all_okG n c r h a : track_all (AS [] n c r) h = DOk a -> (forall sy, ~ dangling (defs a sy)) -> okG a.
Proof.
  intros E D sy. split; [|apply allvalid_spec, D]. revert sy. eapply track_all_dok; [|exact E].
  intros sy. unfold defs. cbn. destruct sy; apply dok_empty.
Qed.
Lemma track_all_keep : forall h a a', track_all a h = DOk a' ->
  anode a' = anode a /\ acond a' = acond a /\ areach a' = areach a.
Proof.
  induction h as [|[[[sy0 b] dl] m] h IH]; intros a a'; cbn [track_all]; [intros [= <-]; auto|].
  destruct (trackDrivers a sy0 b dl m) as [a1|] eqn:E; [|discriminate]. cbn [dbind]. intros E2.
  destruct (IH _ _ E2) as (-> & -> & ->). eapply track_keeps; eauto.
Qed.
Lemma track_all_okA W : aligned_writes W -> forall h a,
  (forall sy b dl m, In (sy, b, dl, m) h -> (exists l, In (l, sy, b) W) /\ dl <> []) -> okA W a ->
  exists a', track_all a h = DOk a' /\ okA W a'.
Proof.
  intros A. induction h as [|[[[sy b] dl] m] h IH]; intros a H O; cbn [track_all]; [eauto|].
  destruct (H sy b dl m (or_introl eq_refl)) as ((l & I) & N).
  destruct (track_ok W a sy b dl m A O) as (a1 & E & O1 & _); auto.
  { exists l, b. auto. }
  rewrite E. cbn [dbind]. apply IH; auto. intros sy' b' dl' m' J. apply (H sy' b' dl' m'). now right.
Qed.

(** * Exact joins *)
Lemma join_union W s other : aligned_writes W -> okA W (cur s) -> okA W other -> areach (cur s) = areach other ->
  exists s', joinState s other = DOk s' /\
    forall sy i n, hasA (cur s') sy i n <-> hasA (cur s) sy i n \/ hasA other sy i n.
Proof.
  intros A O1 O2 E. unfold joinState. rewrite E, Bool.eqb_reflx. unfold mergeStates.
  destruct (merge_defs_ok W A (adefs other) 0 (cur s)) as (a & Ea & Oa & Q1 & Q2 & Q3 & H); auto.
  { intros j d Ej. rewrite <- (defs_some _ _ _ Ej). apply O2. }
  rewrite Ea. cbn [dbind].
  destruct (mergeNodes_total (with_cur s a) (anode a) (anode other)) as (s1 & n & -> & _).
  destruct (mergeNodes_total s1 (acond a) (acond other)) as (s2 & c & -> & _).
  eexists. split; [reflexivity|]. cbn [with_cur cur]. intros sy i k.
  change (hasA (AS (adefs a) n c (areach a)) sy i k) with (hasA a sy i k). rewrite H. unfold hasA at 3, defs.
  split; (intros [Q|Q]; [now left|right]).
  - destruct Q as (j & -> & Q). exact Q.
  - exists sy. split; [lia|exact Q].
Qed.

(** * The node of a join *)
Lemma join_node s other s' : areach (cur s) = areach other -> joinState s other = DOk s' ->
  anode (cur s') =
    match anode (cur s), anode other with
    | Some p, Some q => if Nat.eqb p q then None else Some (fnext (fxs s))
    | Some p, None => Some p
    | None, y => y
    end /\
  forall p q, anode (cur s) = Some p -> anode other = Some q -> p <> q ->
    In (fnext (fxs s), KMerge) (fnodes (fxs s')) /\
    In (DPlain p (fnext (fxs s))) (fdeps (fxs s')) /\ In (DPlain q (fnext (fxs s))) (fdeps (fxs s')).
Proof.
  intros E. unfold joinState. rewrite E, Bool.eqb_reflx. unfold mergeStates.
  destruct (merge_defs (cur s) 0 (adefs other)) as [a|] eqn:Ea; [|discriminate]. cbn [dbind].
  destruct (defs_keep _ _ _ _ Ea) as (E1 & E2 & _). rewrite E1, E2.
  assert (Mono : forall s1 x y s2 z, mergeNodes s1 x y = (s2, z) ->
    (forall e, In e (fnodes (fxs s1)) -> In e (fnodes (fxs s2))) /\ (forall e, In e (fdeps (fxs s1)) -> In e (fdeps (fxs s2)))).
  { intros s1 x y s2 z. unfold mergeNodes, b_merge. destruct x as [p|], y as [q|]; try (intros [= <- _]; auto).
    destruct (Nat.eqb p q); [intros [= <- _]; auto|]. cbn. intros [= <- _]. cbn.
    split; intros e I; apply in_or_app; auto. }
  destruct (mergeNodes (with_cur s a) (anode (cur s)) (anode other)) as [s1 z] eqn:M1.
  destruct (mergeNodes s1 (acond (cur s)) (acond other)) as [s2 c] eqn:M2.
  intros [= <-]. cbn [with_cur cur fxs anode]. destruct (Mono _ _ _ _ _ M2) as [Mn Md].
  unfold mergeNodes, b_merge in M1. split.
  - destruct (anode (cur s)) as [p|], (anode other) as [q|]; try (injection M1 as _ <-; reflexivity).
    destruct (Nat.eqb p q) eqn:Eq; [injection M1 as _ <-; reflexivity|]. cbn in M1. injection M1 as _ <-. reflexivity.
  - intros p q Hp Hq N. rewrite Hp, Hq in M1. destruct (Nat.eqb_spec p q); [congruence|].
    cbn in M1. injection M1 as <- _. cbn [fxs fnodes fdeps] in Mn, Md.
    split; [apply Mn, in_or_app; right; now left|]. split; apply Md, in_or_app; right; cbn; auto.
Qed.

(** * Control edges *)
Section Analysis.
Variable nm : nat -> str.
Variable automatic : nat -> bool.
Variable external : option nat.

(** The trace only grows. *)
Definition more (f f' : fx) : Prop :=
  (exists n, fnodes f' = fnodes f ++ n) /\ (exists d, fdeps f' = fdeps f ++ d) /\ (fnext f <= fnext f')%nat.
Lemma more_refl f : more f f.
Proof. split; [exists []; now rewrite app_nil_r|]. split; [exists []; now rewrite app_nil_r|lia]. Qed.
Lemma more_trans f1 f2 f3 : more f1 f2 -> more f2 f3 -> more f1 f3.
Proof.
  intros ((n1 & A1) & (d1 & B1) & L1) ((n2 & A2) & (d2 & B2) & L2).
  split; [exists (n1 ++ n2); now rewrite A2, A1, app_assoc|].
  split; [exists (d1 ++ d2); now rewrite B2, B1, app_assoc|lia].
Qed.
Lemma more_node f f' e : more f f' -> In e (fnodes f) -> In e (fnodes f').
Proof. intros ((n & E) & _) I. rewrite E. apply in_or_app. auto. Qed.
Lemma more_dep f f' e : more f f' -> In e (fdeps f) -> In e (fdeps f').
Proof. intros (_ & (n & E) & _) I. rewrite E. apply in_or_app. auto. Qed.

Definition grows (s : st) (r : dres st) : Prop := forall s', r = DOk s' -> more (fxs s) (fxs s').
Lemma grows_ok s s' : more (fxs s) (fxs s') -> grows s (DOk s').
Proof. intros H s2 [= <-]. exact H. Qed.
Lemma grows_bind s r g : grows s r -> (forall s', r = DOk s' -> grows s' (g s')) -> grows s (dbind r g).
Proof.
  intros Q H s' E. destruct r as [s1|e]; [|discriminate]. cbn [dbind] in E.
  eapply more_trans; [now apply Q|]. now apply (H s1 eq_refl).
Qed.
Lemma grows_each {A} (g : st -> A -> dres st) : (forall s x, grows s (g s x)) -> forall l s, grows s (each g s l).
Proof.
  intros H. induction l as [|x l IH]; intros s; cbn [each]; [apply grows_ok, more_refl|]. apply grows_bind; auto.
Qed.
Lemma more_emit s ds : more (fxs s) (fxs (emit s ds)).
Proof. split; [exists []; cbn; now rewrite app_nil_r|]. split; [exists ds; reflexivity|cbn; lia]. Qed.
Lemma more_create s k s' n : create s k = (s', n) -> more (fxs s) (fxs s').
Proof.
  intros [= <- _]. split; [eexists; reflexivity|]. split; [exists []; cbn; now rewrite app_nil_r|cbn; lia].
Qed.
Lemma grows_rvalue s sy b : grows s (handleRvalue nm external s sy b).
Proof.
  assert (Ad : forall s sy b n, more (fxs s) (fxs (addRvalue nm s sy b n))).
  { intros. split; [exists []; cbn; now rewrite app_nil_r|]. split; [exists []; cbn; now rewrite app_nil_r|cbn; lia]. }
  unfold handleRvalue. destruct (nth_error _ _) as [d|]; [|apply grows_ok, Ad].
  destruct (anode (cur s)) as [m|]; [|apply grows_ok, Ad].
  destruct (rv_loop nm d m sy b (dm_find d b)) as [[stop ds]|e]; [|discriminate]. cbn [dbind].
  destruct stop; [apply grows_ok, more_emit|]. apply grows_ok. apply (more_trans _ (fxs (emit s ds))); [apply more_emit|].
  generalize (emit s ds). induction (difference [IV (lower b) (upper b) 0%nat] (ivs d)) as [|x l IH]; intros s0;
    cbn [fold_left]; [apply more_refl|]. eapply more_trans; [|apply IH]. apply Ad.
Qed.
Lemma grows_lvalue bl s sy b : grows s (handleLvalue bl s sy b).
Proof.
  unfold handleLvalue. destruct (anode (cur s)) as [n|]; [|discriminate]. destruct bl.
  - destruct (trackDrivers _ _ _ _ _); [|discriminate]. cbn [dbind]. apply grows_ok, more_refl.
  - apply grows_ok. split; [exists []; cbn; now rewrite app_nil_r|]. split; [exists []; cbn; now rewrite app_nil_r|cbn; lia].
Qed.
Lemma grows_note o s x : grows s (noteReference nm automatic external o s x).
Proof.
  unfold noteReference. destruct (negb _); [apply grows_ok, more_refl|].
  destruct (automatic _); [apply grows_ok, more_refl|]. destruct o; [apply grows_lvalue|apply grows_rvalue].
Qed.
Lemma grows_rhs s r : grows s (drive_rhs nm automatic external s r).
Proof.
  destruct r as [[sy b]|l| |]; cbn [drive_rhs].
  - apply grows_rvalue.
  - apply grows_each, grows_note.
  - apply grows_ok, more_refl.
  - destruct (anode (cur s)); [|apply grows_ok, more_refl]. destruct (create s KConst) as [s1 c] eqn:C.
    apply grows_ok. eapply more_trans; [eapply more_create; eauto|apply more_emit].
Qed.

Lemma update_more s n cond : more (fxs s) (fxs (updateNode s n cond)).
Proof.
  unfold updateNode. destruct (acond (cur s)); cbn [with_cur fxs]; [apply more_emit|apply more_refl].
Qed.
Lemma update_edge s n cond c : acond (cur s) = Some c -> In (DPlain c n) (fdeps (fxs (updateNode s n cond))).
Proof. intros E. unfold updateNode. rewrite E. cbn. apply in_or_app. right. now left. Qed.

Lemma seg_control l bl sn c s g s' : do_seg nm automatic external l bl sn (Some c) s g = DOk s' ->
  more (fxs s) (fxs s') /\ In (fnext (fxs s), KAssign l) (fnodes (fxs s')) /\ In (DPlain c (fnext (fxs s))) (fdeps (fxs s')).
Proof.
  unfold do_seg. destruct (create _ (KAssign l)) as [s1 n] eqn:C. intros E.
  assert (G : grows (updateNode s1 n false)
    (do s2 <- each (fun s x => handleLvalue bl s (fst x) (snd x)) (updateNode s1 n false) (slhs g);
     each (drive_rhs nm automatic external) s2 (srhs g))).
  { apply grows_bind; [apply grows_each; intros; apply grows_lvalue|]. intros. apply grows_each, grows_rhs. }
  specialize (G s' E). pose proof (more_create _ _ _ _ C) as M1. cbn [with_cur fxs] in M1.
  pose proof (more_trans _ _ _ M1 (update_more s1 n false)) as M2.
  split; [exact (more_trans _ _ _ M2 G)|]. injection C as <- <-. split.
  - eapply more_node; [exact G|]. eapply more_node; [apply update_more|]. cbn. apply in_or_app. right. now left.
  - eapply more_dep; [exact G|]. apply update_edge. reflexivity.
Qed.

(** Every node of an assignment reached with a condition [c] gets the control edge. *)
Lemma segs_control l bl sn c : forall gs s s', each (do_seg nm automatic external l bl sn (Some c)) s gs = DOk s' ->
  more (fxs s) (fxs s') /\ exists ids, length ids = length gs /\ NoDup ids /\
    forall n, In n ids -> (fnext (fxs s) <= n)%nat /\ In (n, KAssign l) (fnodes (fxs s')) /\ In (DPlain c n) (fdeps (fxs s')).
Proof.
  induction gs as [|g gs IH]; intros s s'; cbn [each].
  - intros [= <-]. split; [apply more_refl|]. exists []. repeat split; try constructor; easy.
  - destruct (do_seg _ _ _ l bl sn (Some c) s g) as [s1|] eqn:E1; [|discriminate]. cbn [dbind]. intros E2.
    destruct (seg_control _ _ _ _ _ _ _ E1) as (M1 & N1 & D1).
    assert (L1 : (fnext (fxs s) < fnext (fxs s1))%nat).
    { clear IH E2. unfold do_seg in E1. destruct (create _ (KAssign l)) as [s0 n] eqn:C.
      assert (G : grows (updateNode s0 n false)
        (do s2 <- each (fun s x => handleLvalue bl s (fst x) (snd x)) (updateNode s0 n false) (slhs g);
         each (drive_rhs nm automatic external) s2 (srhs g))).
      { apply grows_bind; [apply grows_each; intros; apply grows_lvalue|]. intros. apply grows_each, grows_rhs. }
      specialize (G s1 E1). destruct G as (_ & _ & G). destruct (update_more s0 n false) as (_ & _ & G').
      injection C as <- <-. cbn in G, G'. lia. }
    destruct (IH s1 s' E2) as (M2 & ids & Len & Nd & H). split; [eapply more_trans; eauto|].
    exists (fnext (fxs s) :: ids). split; [cbn; lia|]. split.
    + constructor; [|exact Nd]. intros I. destruct (H _ I) as (Q & _). lia.
    + intros n [<-|I].
      * split; [lia|]. split; [eapply more_node; eauto|eapply more_dep; eauto].
      * destruct (H n I) as (Q & R). split; [lia|exact R].
Qed.

Lemma if_control s l c l' bl gs s' :
  exec nm automatic external s (SIf l None c (SAligned l' bl gs)) = DOk s' ->
  exists n0 ids, In (n0, KCond l) (fnodes (fxs s')) /\ length ids = length gs /\ NoDup ids /\
    forall n, In n ids -> In (n, KAssign l') (fnodes (fxs s')) /\ In (DPlain n0 n) (fdeps (fxs s')).
Proof.
  cbn [exec branch_in]. unfold enter_if. destruct (create s (KCond l)) as [s1 n0] eqn:C.
  destruct (each (noteReference nm automatic external None) (updateNode s1 n0 true) c) as [s2|] eqn:E1; [|discriminate]. cbn [dbind].
  assert (Q : cur s2 = cur (updateNode s1 n0 true)).
  { assert (Qu : quiet (updateNode s1 n0 true)
      (each (noteReference nm automatic external None) (updateNode s1 n0 true) c)).
    { apply quiet_each. apply quiet_note. }
    exact (Qu _ E1). }
  assert (M1 : more (fxs (updateNode s1 n0 true)) (fxs s2)).
  { eapply (grows_each (noteReference nm automatic external None)); [apply grows_note|exact E1]. }
  assert (Ec : acond (cur s2) = Some n0) by (rewrite Q; reflexivity).
  rewrite with_cur_same. unfold do_aligned. rewrite Ec.
  destruct (each (do_seg _ _ _ l' bl _ (Some n0)) s2 gs) as [s3|] eqn:E2; [|discriminate]. cbn [dbind]. intros E3.
  destruct (segs_control _ _ _ _ _ _ _ E2) as (M2 & ids & Len & Nd & H).
  assert (M3 : more (fxs s3) (fxs s')).
  { clear E2 E1 M1 M2 H C. unfold joinState in E3. destruct (Bool.eqb _ _).
    - unfold mergeStates in E3. destruct (merge_defs _ _ _) as [a|]; [|discriminate]. cbn [dbind] in E3.
      assert (Mono : forall s1 x y s2 z, mergeNodes s1 x y = (s2, z) -> more (fxs s1) (fxs s2)).
      { intros s0 x y s4 z. unfold mergeNodes, b_merge. destruct x as [p|], y as [q|]; try (intros [= <- _]; apply more_refl).
        destruct (Nat.eqb p q); [intros [= <- _]; apply more_refl|].
        destruct (create s0 KMerge) as [s5 m] eqn:C. intros [= <- _].
        eapply more_trans; [eapply more_create; eauto|apply more_emit]. }
      destruct (mergeNodes (with_cur s3 a) _ _) as [s4 z] eqn:M1.
      destruct (mergeNodes s4 _ _) as [s5 c5] eqn:M2. injection E3 as <-. cbn [with_cur fxs].
      apply Mono in M1. apply Mono in M2. exact (more_trans _ _ _ M1 M2).
    - destruct (negb _); injection E3 as <-; apply more_refl. }
  exists n0, ids. split.
  - eapply more_node; [exact M3|]. eapply more_node; [exact M2|]. eapply more_node; [exact M1|].
    eapply more_node; [apply update_more|]. injection C as <- <-. cbn. apply in_or_app. right. now left.
  - split; [exact Len|]. split; [exact Nd|]. intros n I. destruct (H n I) as (_ & Q1 & Q2).
    split; [eapply more_node; eauto|eapply more_dep; eauto].
Qed.
End Analysis.
