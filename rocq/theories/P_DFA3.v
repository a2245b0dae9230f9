(** Proofs about the data-flow analysis: the trace of a structured block. *)
From Coq Require Import Sorted.
From Verif Require Import Base M_Graph M_Range M_Netlist M_Annot M_Interval M_Heap M_Drivers M_Pending
  M_DFA S_Interval S_Drivers S_DFA P_Interval P_Heap P_Drivers P_DriversX P_DFA P_DFA2.
Local Open Scope Z_scope.

(** No write of [W] to the symbol straddles an end of the read. *)
Definition sfree (W : trace) (sy : nat) (b : range) : Prop :=
  forall l b', In (l, sy, b') W -> lower b' <= upper b -> lower b <= upper b' ->
    (lower b' <= lower b /\ upper b <= upper b') \/ (lower b <= lower b' /\ upper b' <= upper b).

Lemma sfree_fits W sy b d : okd W sy d -> sfree W sy b -> fits d b.
Proof.
  intros O S x I. destruct (ok_in _ _ _ O x I) as (l & b' & J & -> & ->). apply (S l b' J).
Qed.

(** Edges and pending R-values by label. *)
Definition edges (f : fx) (ds : list dep) (l : nat) (k : nk) (name : str) (b : range) : Prop :=
  exists n m, In (DDep n m (Some name) b EKNone) ds /\ In (n, KAssign l) (fnodes f) /\ In (m, k) (fnodes f).
Definition pends (f : fx) (ps : list pend) (k : nk) (sy : nat) (i : Z) : Prop :=
  exists x m, In x ps /\ psym x = sy /\ pnode x = Some m /\ In (m, k) (fnodes f) /\ bit (pbounds x) i.
Definition nbm (f : fx) (x : nat * range * nat) (w : wr) : Prop :=
  fst (fst x) = snd (fst w) /\ snd (fst x) = snd w /\ In (snd x, KAssign (fst (fst w))) (fnodes f).

Lemma edges_ext f f' ds l k name b : okF f -> ext f f' -> Forall (dlt (fnext f)) ds ->
  (edges f ds l k name b <-> edges f' ds l k name b).
Proof.
  intros O X D. rewrite Forall_forall in D. split.
  - intros (n & m & I & A & B). exists n, m. split; [exact I|]. split; eapply ext_in; eauto.
  - intros (n & m & I & A & B). exists n, m. split; [exact I|]. destruct (D _ I).
    split; eapply ext_old; eauto.
Qed.
Lemma pends_ext f f' ps k sy i : okF f -> ext f f' -> Forall (plt (fnext f)) ps ->
  (pends f ps k sy i <-> pends f' ps k sy i).
Proof.
  intros O X D. rewrite Forall_forall in D. split.
  - intros (x & m & I & A & B & C & E). exists x, m. repeat split; auto; try apply E. eapply ext_in; eauto.
  - intros (x & m & I & A & B & C & E). exists x, m. repeat split; auto; try apply E.
    specialize (D _ I). unfold plt in D. rewrite B in D. eapply ext_old; eauto.
Qed.
Lemma edges_app f d1 d2 l k name b :
  edges f (d1 ++ d2) l k name b <-> edges f d1 l k name b \/ edges f d2 l k name b.
Proof.
  split.
  - intros (n & m & I & R). apply in_app_or in I. destruct I as [I|I]; [left|right]; exists n, m; auto.
  - intros [(n & m & I & R)|(n & m & I & R)]; exists n, m; (split; [apply in_or_app; auto|exact R]).
Qed.
Lemma pends_app f p1 p2 k sy i : pends f (p1 ++ p2) k sy i <-> pends f p1 k sy i \/ pends f p2 k sy i.
Proof.
  split.
  - intros (x & m & I & R). apply in_app_or in I. destruct I as [I|I]; [left|right]; exists x, m; auto.
  - intros [(n & m & I & R)|(n & m & I & R)]; exists n, m; (split; [apply in_or_app; auto|exact R]).
Qed.

(** Every edge of a symbol and every pending R-value belongs to labelled nodes. *)
Definition lab (f : fx) (ds : list dep) (ps : list pend) : Prop :=
  (forall n m name b k, In (DDep n m name b k) ds ->
     (exists l, In (n, KAssign l) (fnodes f)) /\ (exists k', In (m, k') (fnodes f)) /\ (exists x, name = Some x) /\ k = EKNone) /\
  (forall x, In x ps -> exists m k, pnode x = Some m /\ In (m, k) (fnodes f)).
Lemma lab_ext f f' ds ps : ext f f' -> lab f ds ps -> lab f' ds ps.
Proof.
  intros X [A B]. split.
  - intros n m name b k I. destruct (A n m name b k I) as ((l & H1) & (k' & H2) & H3).
    split; [exists l; eapply ext_in; eauto|]. split; [exists k'; eapply ext_in; eauto|exact H3].
  - intros x I. destruct (B x I) as (m & k & H1 & H2). exists m, k. split; [exact H1|eapply ext_in; eauto].
Qed.
Lemma lab_app f d1 d2 p1 p2 : lab f d1 p1 -> lab f d2 p2 -> lab f (d1 ++ d2) (p1 ++ p2).
Proof.
  intros [A B] [C D]. split.
  - intros n m name b k I. apply in_app_or in I. destruct I; eauto.
  - intros x I. apply in_app_or in I. destruct I; eauto.
Qed.
Lemma lab_plain f ds : plain ds -> lab f ds [].
Proof.
  intros P. split; [|easy]. intros n m name b k I. destruct (P _ I) as (? & ? & Q). discriminate.
Qed.

Section Analysis.
Variable nm : nat -> str.
Variable external : option nat.

(** What happened to the trace while the reads [R] and the non-blocking writes [N] were
    done from a state with drivers [B]; the last two facts and the exactness of [N] need
    that all code was reachable ([lv]). *)
Definition tr (W : trace) (B : base) (rb : bool) (f f' : fx) (R : list rd) (N : trace) (lv : bool) : Prop :=
  exists ds ps ls, grow f f' ds ps ls /\
    (rb = true -> forall T k sy b i l, In (T, k, (sy, b)) R -> sfree W sy b -> bit b i ->
       some_path B T sy i l -> edges f' ds l k (nm sy) b) /\
    (rb = true -> forall T k sy b i, In (T, k, (sy, b)) R -> T <> [] -> bit b i ->
       no_path B T sy i -> pends f' ps k sy i) /\
    (lv = true -> rb = true -> forall l k name b, edges f' ds l k name b ->
       exists T sy i, In (T, k, (sy, b)) R /\ name = nm sy /\ bit b i /\ some_path B T sy i l) /\
    (lv = true -> rb = true -> forall k sy i, pends f' ps k sy i ->
       exists T b, In (T, k, (sy, b)) R /\ bit b i /\ (no_path B T sy i \/ i = upper b)) /\
    (lv = true -> rb = true -> Forall2 (nbm f') ls N) /\
    (lv = true -> rb = true -> lab f' ds ps).

Lemma tr_grow W B rb f f' R N lv : tr W B rb f f' R N lv -> exists ds ps ls, grow f f' ds ps ls.
Proof. intros (ds & ps & ls & G & _). eauto. Qed.
Lemma tr_ext W B rb f f' R N lv : tr W B rb f f' R N lv -> ext f f'.
Proof. intros (ds & ps & ls & G & _). eapply grow_ext; eauto. Qed.

Lemma tr_plain W B rb f f' ds lv : grow f f' ds [] [] -> plain ds -> tr W B rb f f' [] [] lv.
Proof.
  intros G P. exists ds, [], []. split; [exact G|]. split; [easy|]. split; [easy|]. split; [|split; [|split]].
  - intros _ _ l k name b (n & m & I & _). destruct (P _ I) as (a & c & Q). discriminate.
  - intros _ _ k sy i (x & m & [] & _).
  - constructor.
  - intros _ _. now apply lab_plain.
Qed.
Lemma tr_refl W B rb f lv : tr W B rb f f [] [] lv.
Proof. apply tr_plain with (ds := []); [apply grow_refl|easy]. Qed.

Lemma nbm_ext f f' ls N : ext f f' -> Forall2 (nbm f) ls N -> Forall2 (nbm f') ls N.
Proof.
  intros X H. induction H as [|x w ls N (A & B & C) H IH]; constructor; auto.
  repeat split; auto. eapply ext_in; eauto.
Qed.

Lemma tr_app W B rb f f1 f2 R1 N1 l1 R2 N2 l2 : okF f1 ->
  tr W B rb f f1 R1 N1 l1 -> tr W B rb f1 f2 R2 N2 l2 -> tr W B rb f f2 (R1 ++ R2) (N1 ++ N2) (l1 && l2).
Proof.
  intros O (d1 & p1 & s1 & G1 & A1 & B1 & C1 & D1 & E1 & F1) (d2 & p2 & s2 & G2 & A2 & B2 & C2 & D2 & E2 & F2).
  pose proof (grow_ext _ _ _ _ _ G2) as X.
  assert (Fd : Forall (dlt (fnext f1)) d1) by apply G1.
  assert (Fp : Forall (plt (fnext f1)) p1) by apply G1.
  exists (d1 ++ d2), (p1 ++ p2), (s1 ++ s2). split; [eapply grow_trans; eauto|].
  split; [|split; [|split; [|split; [|split]]]].
  - intros Rb T k sy b i l I S Bi P. apply edges_app. apply in_app_or in I. destruct I as [I|I].
    + left. apply (edges_ext f1 f2); auto. eapply A1; eauto.
    + right. eapply A2; eauto.
  - intros Rb T k sy b i I NT Bi P. apply pends_app. apply in_app_or in I. destruct I as [I|I].
    + left. apply (pends_ext f1 f2); auto. eapply B1; eauto.
    + right. eapply B2; eauto.
  - intros L Rb l k name b E. apply andb_true_iff in L. destruct L as [L1 L2].
    apply edges_app in E. destruct E as [E|E].
    + apply (edges_ext f1 f2) in E; auto. destruct (C1 L1 Rb l k name b E) as (T & sy & i & I & R).
      exists T, sy, i. rewrite in_app_iff. auto.
    + destruct (C2 L2 Rb l k name b E) as (T & sy & i & I & R). exists T, sy, i. rewrite in_app_iff. auto.
  - intros L Rb k sy i E. apply andb_true_iff in L. destruct L as [L1 L2].
    apply pends_app in E. destruct E as [E|E].
    + apply (pends_ext f1 f2) in E; auto. destruct (D1 L1 Rb k sy i E) as (T & b & I & R).
      exists T, b. rewrite in_app_iff. auto.
    + destruct (D2 L2 Rb k sy i E) as (T & b & I & R). exists T, b. rewrite in_app_iff. auto.
  - intros L Rb. apply andb_true_iff in L. destruct L as [L1 L2].
    apply Forall2_app; [|now apply E2]. eapply nbm_ext; eauto.
  - intros L Rb. apply andb_true_iff in L. destruct L as [L1 L2].
    apply lab_app; [|now apply F2]. apply (lab_ext f1); auto.
Qed.

(** A trace seen from before the paths [T1]. *)
Lemma tr_after W B rb f0 a T1 f f' R N lv : arm W B rb f0 a T1 -> (lv = true -> T1 <> []) ->
  tr W (drv f0 a) (areach a) f f' R N lv -> tr W B rb f f' (map (after T1) R) N lv.
Proof.
  intros M NT (ds & ps & ls & G & A & Bc & C & D & E & F). exists ds, ps, ls. split; [exact G|].
  assert (Inr : forall T k x, In (T, k, x) (map (after T1) R) <-> exists T', In (T', k, x) R /\ T = cat T1 T').
  { intros T k x. rewrite in_map_iff. split.
    - intros ([[T' k'] x'] & Q & I). unfold after in Q. injection Q as <- <- <-. eauto.
    - intros (T' & I & ->). exists (T', k, x). auto. }
  split; [|split; [|split; [|split; [|split]]]].
  - intros Rb T k sy b i l I S Bi P. apply Inr in I. destruct I as (T' & I & ->).
    assert (N1 : T1 <> []).
    { destruct P as (t & J & _). intros ->. easy. }
    rewrite (some_cat B (drv f0 a)) in P; [|intros; now apply (arm_drv _ _ _ _ _ _ M)|exact N1].
    eapply A; eauto. now apply (arm_live _ _ _ _ _ _ M).
  - intros Rb T k sy b i I NT' Bi P. apply Inr in I. destruct I as (T' & I & ->).
    apply cat_ne in NT'. destruct NT' as [N1 N2].
    rewrite (no_cat B (drv f0 a)) in P; [|intros; now apply (arm_drv _ _ _ _ _ _ M)|exact N1|exact N2].
    eapply Bc; eauto. now apply (arm_live _ _ _ _ _ _ M).
  - intros L Rb l k name b Q. specialize (NT L).
    assert (Ra : areach a = true) by now apply (arm_live _ _ _ _ _ _ M).
    destruct (C L Ra l k name b Q) as (T & sy & i & I & Q1 & Q2 & Q3). exists (cat T1 T), sy, i.
    split; [apply Inr; eauto|]. split; [exact Q1|]. split; [exact Q2|].
    rewrite (some_cat B (drv f0 a)); auto. intros; now apply (arm_drv _ _ _ _ _ _ M).
  - intros L Rb k sy i Q. specialize (NT L).
    assert (Ra : areach a = true) by now apply (arm_live _ _ _ _ _ _ M).
    destruct (D L Ra k sy i Q) as (T & b & I & Q1 & Q2). exists (cat T1 T), b.
    split; [apply Inr; eauto|]. split; [exact Q1|]. destruct Q2 as [Q2|Q2]; [left|now right].
    destruct T as [|t T].
    { intros t J. apply in_cat in J. destruct J as (x & y & _ & [] & _). }
    rewrite (no_cat B (drv f0 a)); auto; [intros; now apply (arm_drv _ _ _ _ _ _ M)|discriminate].
  - intros L Rb. apply E; [exact L|]. now apply (arm_live _ _ _ _ _ _ M); auto.
  - intros L Rb. apply F; [exact L|]. now apply (arm_live _ _ _ _ _ _ M); auto.
Qed.

Lemma tr_base W B B' rb f f' R N lv : (forall sy i l, B sy i l <-> B' sy i l) ->
  tr W B rb f f' R N lv -> tr W B' rb f f' R N lv.
Proof.
  intros H (ds & ps & ls & G & A & Bc & C & D & E & F). exists ds, ps, ls. split; [exact G|].
  assert (Hs : forall T sy i l, some_path B T sy i l <-> some_path B' T sy i l).
  { intros T sy i l. unfold some_path. split; intros (t & I & Q); exists t; rewrite (H sy i l) in *; auto. }
  assert (Hn : forall T sy i, no_path B T sy i <-> no_path B' T sy i).
  { intros T sy i. unfold no_path. split; intros Q t I; destruct (Q t I) as [Q1 Q2]; (split; [exact Q1|]);
      intros l; [rewrite <- H|rewrite H]; apply Q2. }
  split; [|split; [|split; [|split; [|split]]]]; auto.
  - intros Rb T k sy b i l I S Bi P. apply Hs in P. eauto.
  - intros Rb T k sy b i I NT Bi P. apply Hn in P. eauto.
  - intros L Rb l k name b Q. destruct (C L Rb l k name b Q) as (T & sy & i & I & Q1 & Q2 & Q3).
    exists T, sy, i. rewrite <- Hs. auto.
  - intros L Rb k sy i Q. destruct (D L Rb k sy i Q) as (T & b & I & Q1 & Q2).
    exists T, b. rewrite <- Hn. auto.
Qed.
Lemma arm_base W B B' rb f a T : (forall sy i l, B sy i l <-> B' sy i l) ->
  arm W B rb f a T -> arm W B' rb f a T.
Proof.
  intros H [S D L R]. split; auto. intros E N sy i l. rewrite (R E N). unfold some_path.
  split; intros (t & I & Q); exists t; rewrite (H sy i l) in *; auto.
Qed.
Lemma tr_weaken W B rb f f' R N lv lv' : (lv' = true -> lv = true) ->
  tr W B rb f f' R N lv -> tr W B rb f f' R N lv'.
Proof.
  intros H (ds & ps & ls & G & A & Bc & C & D & E & F). exists ds, ps, ls.
  split; [exact G|]. split; [exact A|]. split; [exact Bc|]. split; [auto|]. split; [auto|]. split; auto.
Qed.
Lemma tr_dead W B f f' ds ps ls R N lv : grow f f' ds ps ls -> tr W B false f f' R N lv.
Proof. intros G. exists ds, ps, ls. split; [exact G|]. repeat split; discriminate. Qed.

(** * The result of running a statement from [s] *)
Definition res (W : trace) (s : st) (r : dres st) (T : list trace) (R : list rd) (N : trace) (lv : bool) : Prop :=
  exists s', r = DOk s' /\ okF (fxs s') /\
    arm W (drv (fxs s) (cur s)) (areach (cur s)) (fxs s') (cur s') T /\
    tr W (drv (fxs s) (cur s)) (areach (cur s)) (fxs s) (fxs s') R N lv.
Definition ready (W : trace) (s : st) : Prop :=
  okF (fxs s) /\ okSA W (fxs s) (cur s) /\ olt (fnext (fxs s)) external.

Lemma ready_next W s s' T : ready W s -> okF (fxs s') -> ext (fxs s) (fxs s') ->
  arm W (drv (fxs s) (cur s)) (areach (cur s)) (fxs s') (cur s') T -> ready W s'.
Proof.
  intros (O & S & E) O' X M. split; [exact O'|]. split; [apply (arm_ok _ _ _ _ _ _ M)|].
  eapply olt_ext; eauto.
Qed.

Lemma res_seq W s r g T1 R1 N1 l1 T2 R2 N2 l2 : ready W s -> (l2 = true -> l1 = true -> T1 <> []) ->
  res W s r T1 R1 N1 l1 ->
  (forall s', ready W s' -> ext (fxs s) (fxs s') -> r = DOk s' -> res W s' (g s') T2 R2 N2 l2) ->
  res W s (dbind r g) (cat T1 T2) (R1 ++ map (after T1) R2) (N1 ++ N2) (l1 && l2).
Proof.
  intros Rd NT (s1 & E1 & O1 & M1 & Tr1) H. rewrite E1. cbn [dbind].
  assert (X : ext (fxs s) (fxs s1)) by (eapply tr_ext; eauto).
  destruct (H s1 (ready_next W s s1 T1 Rd O1 X M1) X E1) as (s2 & E2 & O2 & M2 & Tr2).
  exists s2. split; [exact E2|]. split; [exact O2|]. split; [eapply arm_seq; eauto|].
  replace (l1 && l2)%bool with (l1 && (l1 && l2))%bool by (destruct l1, l2; reflexivity).
  apply (tr_app W _ _ (fxs s) (fxs s1) (fxs s2) R1 N1 l1 _ N2 (l1 && l2) O1 Tr1).
  eapply tr_after; [exact M1| |].
  - intros L. apply andb_true_iff in L. tauto.
  - eapply tr_weaken; [|exact Tr2]. intros L. apply andb_true_iff in L. tauto.
Qed.
Lemma res_skip W s : ready W s -> res W s (DOk s) [[]] [] [] true.
Proof.
  intros (O & S & _). exists s. split; [reflexivity|]. split; [exact O|]. split; [now apply arm_self|apply tr_refl].
Qed.

(** Same drivers and reachability, other nodes or a longer trace. *)
Lemma res_pre W s s0 r T R N lv : ready W s -> okF (fxs s0) ->
  (exists ds, grow (fxs s) (fxs s0) ds [] [] /\ plain ds) ->
  adefs (cur s0) = adefs (cur s) -> areach (cur s0) = areach (cur s) ->
  res W s0 r T R N lv -> res W s r T R N lv.
Proof.
  intros (O & S & E) O0 (ds & G & P) Ed Er (s' & Es & O' & M & Tr).
  pose proof (grow_ext _ _ _ _ _ G) as X.
  assert (Hb : forall sy i l, drv (fxs s0) (cur s0) sy i l <-> drv (fxs s) (cur s) sy i l).
  { intros sy i l. rewrite (drv_ext _ _ (cur s) sy i l O X (sa_known _ _ _ S)).
    unfold drv, hasA, defs. rewrite Ed. tauto. }
  exists s'. split; [exact Es|]. split; [exact O'|]. rewrite Er in *. split; [eapply arm_base; eauto|].
  eapply tr_base in Tr; [|exact Hb].
  apply (tr_app W _ _ (fxs s) (fxs s0) (fxs s') [] [] true R N lv O0); [eapply tr_plain; eauto|exact Tr].
Qed.

Lemma cat_nil_l T : cat [[]] T = T.
Proof. unfold cat. cbn. rewrite app_nil_r. rewrite <- (map_id T) at 2. apply map_ext. reflexivity. Qed.
Lemma after_nil R : map (after [[]]) R = R.
Proof.
  rewrite <- (map_id R) at 2. apply map_ext. intros [[T k] x]. unfold after. now rewrite cat_nil_l.
Qed.
Lemma after_reads w k rs : map (after [w]) (reads_at [[]] k rs) = reads_at [w] k rs.
Proof.
  unfold reads_at. rewrite map_map. apply map_ext. intros x. unfold after, cat. cbn. now rewrite app_nil_r.
Qed.
Lemma reads_at_app T k r1 r2 : reads_at T k (r1 ++ r2) = reads_at T k r1 ++ reads_at T k r2.
Proof. apply map_app. Qed.

(** ** Reads *)
Definition quiet (s : st) (r : dres st) : Prop := forall s', r = DOk s' -> cur s' = cur s.
Lemma quiet_ok s : quiet s (DOk s).
Proof. intros s' [= <-]. reflexivity. Qed.
Lemma quiet_bind s r g : quiet s r -> (forall s', r = DOk s' -> quiet s' (g s')) -> quiet s (dbind r g).
Proof.
  intros Q H s' E. destruct r as [s1|e]; [|discriminate]. cbn [dbind] in E.
  rewrite (H s1 eq_refl s' E). apply Q. reflexivity.
Qed.
Lemma quiet_each {A} (g : st -> A -> dres st) : (forall s x, quiet s (g s x)) ->
  forall l s, quiet s (each g s l).
Proof.
  intros H. induction l as [|x l IH]; intros s; cbn [each]; [apply quiet_ok|].
  apply quiet_bind; auto.
Qed.
Lemma quiet_rvalue s sy b : quiet s (handleRvalue nm external s sy b).
Proof.
  unfold handleRvalue. destruct (nth_error _ _) as [d|].
  - destruct (anode (cur s)) as [m|].
    + destruct (rv_loop nm d m sy b (dm_find d b)) as [[stop ds]|e]; [|discriminate]. cbn [dbind].
      destruct stop; intros s' [= <-]; [reflexivity|].
      destruct (fold_addRvalue nm sy m (difference [IV (lower b) (upper b) 0%nat] (ivs d)) (emit s ds)) as [Q _].
      rewrite Q. reflexivity.
    + intros s' [= <-]. reflexivity.
  - intros s' [= <-]. reflexivity.
Qed.
Variable automatic : nat -> bool.
Lemma quiet_note s x : quiet s (noteReference nm automatic external None s x).
Proof.
  unfold noteReference. destruct (negb _); [apply quiet_ok|].
  destruct (automatic (fst x)); [apply quiet_ok|]. apply quiet_rvalue.
Qed.
Lemma quiet_rhs s r : quiet s (drive_rhs nm automatic external s r).
Proof.
  destruct r as [[sy b]|l| |]; cbn [drive_rhs].
  - apply quiet_rvalue.
  - apply quiet_each. apply quiet_note.
  - apply quiet_ok.
  - destruct (anode (cur s)); [|apply quiet_ok]. intros s' [= <-]. reflexivity.
Qed.

(** The trace of a read that added only edges and pending R-values. *)
Lemma rstep_arm W s s' ds ps : okSA W (fxs s) (cur s) -> rstep s s' ds ps ->
  arm W (drv (fxs s) (cur s)) (areach (cur s)) (fxs s') (cur s') [[]].
Proof.
  intros S [C F]. rewrite C.
  assert (S' : okSA W (fxs s') (cur s)).
  { destruct S as [A K N Q]. split; auto; rewrite F; auto. }
  apply (arm_base W (drv (fxs s') (cur s))); [|now apply arm_self].
  intros sy i l. unfold drv. rewrite F. reflexivity.
Qed.
Lemma rstep_grow s s' ds ps : rstep s s' ds ps -> Forall (dlt (fnext (fxs s))) ds ->
  Forall (plt (fnext (fxs s))) ps -> grow (fxs s) (fxs s') ds ps [] /\ (okF (fxs s) -> okF (fxs s')).
Proof.
  intros [C F] D P. split.
  - unfold grow. rewrite F. cbn. rewrite app_nil_r. repeat split; auto; try constructor.
    exists []. rewrite app_nil_r. split; [reflexivity|easy].
  - intros [A B]. split; rewrite F; auto.
Qed.

Lemma read_any W s sy b : ready W s -> res W s (handleRvalue nm external s sy b) [[]] [] [] false.
Proof.
  intros (O & S & E).
  destruct (handleRvalue_any nm external s sy b (fnext (fxs s))) as (s' & ds & ps & Eh & R & D & P).
  - apply (ok_dok _ _ _ (sa_ok _ _ _ S sy)).
  - apply (proj1 (ok_uns _ _ _ (sa_ok _ _ _ S sy))).
  - intros i n H. destruct (sa_known _ _ _ S sy i n H) as (l & I). apply (proj1 O _ _ I).
  - intros m Em. pose proof (sa_node _ _ _ S) as Q. now rewrite Em in Q.
  - intros m Em. now rewrite Em in E.
  - destruct (rstep_grow s s' ds ps R D P) as [G O'].
    exists s'. split; [exact Eh|]. split; [auto|]. split; [now apply (rstep_arm W s s' ds ps)|].
    exists ds, ps, []. split; [exact G|]. repeat split; easy.
Qed.

Lemma read_node W s sy b m k : ready W s -> anode (cur s) = Some m -> In (m, k) (fnodes (fxs s)) ->
  res W s (handleRvalue nm external s sy b) [[]] (reads_at [[]] k [(sy, b)]) [] true.
Proof.
  intros (O & S & E) Em Hk.
  destruct (handleRvalue_node nm external s sy b m Em) as (s' & ds & ps & Eh & R & Sp).
  - apply (ok_dok _ _ _ (sa_ok _ _ _ S sy)).
  - apply (proj1 (ok_uns _ _ _ (sa_ok _ _ _ S sy))).
  - assert (Lm : (m < fnext (fxs s))%nat) by (apply (proj1 O _ _ Hk)).
    destruct (rstep_grow s s' ds ps R) as [G O'].
    { rewrite Forall_forall. intros e I. destruct (rds_sound _ _ _ _ _ _ Sp e I) as (sy' & b' & n & i & -> & _ & _ & H).
      cbn. split; [|exact Lm]. destruct (sa_known _ _ _ S sy' i n H) as (l & J). apply (proj1 O _ _ J). }
    { rewrite Forall_forall. intros x I. unfold plt. now rewrite (proj1 (rds_psound _ _ _ _ _ _ Sp x I)). }
    exists s'. split; [exact Eh|]. split; [auto|]. split; [now apply (rstep_arm W s s' ds ps)|].
    assert (Fn : fnodes (fxs s') = fnodes (fxs s)) by (rewrite (proj2 R); reflexivity).
    exists ds, ps, []. split; [exact G|]. cbn [reads_at map].
    split; [|split; [|split; [|split; [|split]]]].
    + intros _ T k' sy' b' i l [J|[]] Sf Bi P. injection J as <- <- <- <-.
      destruct P as (t & [<-|[]] & [Q|[_ (n & H & I)]]); [discriminate|].
      exists n, m. rewrite Fn. split; [|auto].
      apply (rds_complete _ _ _ _ _ _ Sp sy b i n); auto; [now left|].
      apply (sfree_fits W sy); auto. apply (sa_ok _ _ _ S).
    + intros _ T k' sy' b' i [J|[]] _ Bi P. injection J as <- <- <- <-.
      destruct (rds_pcomplete _ _ _ _ _ _ Sp sy b i (or_introl eq_refl) Bi) as (x & I & Px & Bx).
      { intros C. apply (covers_drv W (fxs s)) in C; [|exact S]. destruct C as (l & Q).
        destruct (P [] (or_introl eq_refl)) as [_ Q']. exact (Q' l Q). }
      exists x, m. rewrite Fn. split; [exact I|]. split; [exact Px|].
      split; [apply (rds_psound _ _ _ _ _ _ Sp x I)|]. auto.
    + intros _ _ l k' name b' (n & m' & I & A & C). rewrite Fn in A, C.
      destruct (rds_sound _ _ _ _ _ _ Sp _ I) as (sy' & b2 & n' & i & Q & J & Bi & H).
      injection Q as <- -> -> <-. destruct J as [[= <- <-]|[]].
      rewrite (proj2 O m k' k C Hk). exists [[]], sy, i. split; [now left|]. split; [reflexivity|].
      split; [exact Bi|]. exists []. split; [now left|]. right. split; [reflexivity|]. exists n. auto.
    + intros _ _ k' sy' i (x & m' & I & Px & Pm & C & Bx). rewrite Fn in C.
      destruct (rds_psound _ _ _ _ _ _ Sp x I) as (Q & b' & J & H). destruct J as [J|[]].
      injection J as -> ->. rewrite Q in Pm. injection Pm as <-.
      rewrite (proj2 O m k' k C Hk). destruct (H i Bx) as [Bi Hc].
      subst sy'. exists [[]], b'. split; [left; reflexivity|]. split; [exact Bi|].
      destruct Hc as [Hc|Hc]; [left|now right]. intros t [<-|[]]. split; [reflexivity|].
      intros l Q'. apply Hc. apply (covers_drv W (fxs s)); [exact S|]. exists l. exact Q'.
    + intros _ _. constructor.
    + intros _ _. split.
      * intros n m' name b' k' I. destruct (rds_sound _ _ _ _ _ _ Sp _ I) as (sy' & b2 & n' & i & Q & J & Bi & H).
        injection Q as <- -> -> <- ->. rewrite Fn. split; [apply (sa_known _ _ _ S sy' i n H)|].
        split; [eauto|]. split; [eauto|reflexivity].
      * intros x I. exists m, k. rewrite Fn. split; [apply (rds_psound _ _ _ _ _ _ Sp x I)|exact Hk].
Qed.

Lemma res_dead W s s' T R N lv ds ps ls : areach (cur s) = false -> okF (fxs s') -> cur s' = cur s ->
  okSA W (fxs s) (cur s) -> grow (fxs s) (fxs s') ds ps ls -> res W s (DOk s') T R N lv.
Proof.
  intros D O C S G. exists s'. split; [reflexivity|]. split; [exact O|]. rewrite C, D. split.
  - split; try discriminate; [|auto]. eapply okSA_ext; [eapply grow_ext; eauto|exact S].
  - eapply tr_dead; eauto.
Qed.

(** The current node, when the code is reachable. *)
Definition at_node (s : st) (m : nat) (k : nk) : Prop :=
  areach (cur s) = true -> anode (cur s) = Some m /\ In (m, k) (fnodes (fxs s)).
Lemma at_node_next s s' m k : cur s' = cur s -> ext (fxs s) (fxs s') -> at_node s m k -> at_node s' m k.
Proof.
  intros C X H D. rewrite C in *. destruct (H D). split; [assumption|]. eapply ext_in; eauto.
Qed.

Lemma res_eq W s r T R N lv T' R' N' : T = T' -> R = R' -> N = N' -> res W s r T R N lv -> res W s r T' R' N' lv.
Proof. intros -> -> ->. auto. Qed.

Lemma note_read W s x m k : ready W s -> at_node s m k ->
  res W s (noteReference nm automatic external None s x) [[]] (reads_at [[]] k (static automatic [x])) [] true.
Proof.
  intros Rd H. unfold noteReference. destruct (areach (cur s)) eqn:D; cbn [negb].
  - cbn [static filter]. destruct (automatic (fst x)); cbn [negb]; [now apply res_skip|].
    destruct (H D) as [Em Hk]. destruct x as [sy b]. cbn [fst snd]. eapply read_node; eauto.
  - destruct Rd as (O & S & _). apply (res_dead W s s _ _ _ _ [] [] []); auto. apply grow_refl.
Qed.
Lemma note_reads W m k : forall l s, ready W s -> at_node s m k ->
  res W s (each (noteReference nm automatic external None) s l) [[]] (reads_at [[]] k (static automatic l)) [] true.
Proof.
  induction l as [|x l IH]; intros s Rd H; cbn [each]; [now apply res_skip|].
  eapply res_eq; [| | |apply (res_seq W s _ _ [[]] (reads_at [[]] k (static automatic [x])) [] true [[]] (reads_at [[]] k (static automatic l)) [] true Rd)].
  - reflexivity.
  - rewrite after_nil. rewrite <- reads_at_app. unfold static. rewrite <- filter_app. reflexivity.
  - reflexivity.
  - discriminate.
  - now apply note_read with (m := m).
  - intros s' Rd' X E. apply IH; [exact Rd'|]. apply (at_node_next s); auto. eapply quiet_note; eauto.
Qed.
Lemma note_any W : forall l s, ready W s ->
  res W s (each (noteReference nm automatic external None) s l) [[]] [] [] false.
Proof.
  induction l as [|x l IH]; intros s Rd; cbn [each].
  - destruct (res_skip W s Rd) as (s' & E & O & M & Tr). exists s'. repeat (split; [assumption|]).
    eapply tr_weaken; [|exact Tr]. auto.
  - eapply res_eq; [| | |apply (res_seq W s _ _ [[]] [] [] false [[]] [] [] false Rd)]; try reflexivity.
    + discriminate.
    + unfold noteReference. destruct (areach (cur s)) eqn:D; cbn [negb].
      * destruct (automatic (fst x)); [|now apply read_any].
        destruct (res_skip W s Rd) as (s' & E & O & M & Tr). exists s'. repeat (split; [assumption|]).
        eapply tr_weaken; [|exact Tr]. auto.
      * destruct Rd as (O & S & _). apply (res_dead W s s _ _ _ _ [] [] []); auto. apply grow_refl.
    + intros s' Rd' X E. now apply IH.
Qed.

Lemma rhs_read W s r m k : ready W s -> anode (cur s) = Some m -> In (m, k) (fnodes (fxs s)) ->
  res W s (drive_rhs nm automatic external s r) [[]] (reads_at [[]] k (src_refs automatic r)) [] true.
Proof.
  intros Rd Em Hk. destruct r as [[sy b]|l| |]; cbn [drive_rhs src_refs].
  - eapply read_node; eauto.
  - apply note_reads with (m := m); [exact Rd|]. intros _. auto.
  - now apply res_skip.
  - rewrite Em. destruct (create s KConst) as [s1 c] eqn:C. pose proof Rd as (O & S & E).
    destruct (create_grow s KConst O s1 c C) as (_ & Cu & O1 & G1 & Lc & _).
    assert (Lm : (m < fnext (fxs s1))%nat).
    { pose proof (proj1 O _ _ Hk). pose proof (proj1 (grow_ext _ _ _ _ _ G1)). lia. }
    destruct (emit_grow s1 [DPlain c m]) as (Cu2 & O2 & G2); [repeat constructor; cbn; auto|].
    pose proof (grow_trans _ _ _ _ _ _ _ _ _ G1 G2) as G. cbn [app] in G.
    assert (Rd2 : ready W (emit s1 [DPlain c m])).
    { split; [auto|]. rewrite Cu2, Cu. split; [eapply okSA_ext; [eapply grow_ext; eauto|exact S]|].
      eapply olt_ext; [eapply grow_ext; eauto|exact E]. }
    apply (res_pre W s (emit s1 [DPlain c m])); auto.
    + exists [DPlain c m]. split; [exact G|]. intros e [<-|[]]. eauto.
    + now rewrite Cu2, Cu.
    + now rewrite Cu2, Cu.
    + now apply res_skip.
Qed.
Lemma rhs_reads W m k : forall rs s, ready W s -> anode (cur s) = Some m -> In (m, k) (fnodes (fxs s)) ->
  res W s (each (drive_rhs nm automatic external) s rs) [[]] (reads_at [[]] k (flat_map (src_refs automatic) rs)) [] true.
Proof.
  induction rs as [|x l IH]; intros s Rd Em Hk; cbn [each flat_map]; [now apply res_skip|].
  eapply res_eq; [| | |apply (res_seq W s _ _ [[]] (reads_at [[]] k (src_refs automatic x)) [] true [[]] (reads_at [[]] k (flat_map (src_refs automatic) l)) [] true Rd)].
  - reflexivity.
  - rewrite after_nil. rewrite <- reads_at_app. reflexivity.
  - reflexivity.
  - discriminate.
  - now apply rhs_read with (m := m).
  - intros s' Rd' X E. apply IH; [exact Rd'| |eapply ext_in; eauto].
    now rewrite (quiet_rhs s x s' E).
Qed.
End Analysis.
