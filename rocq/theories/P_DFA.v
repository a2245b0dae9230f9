(** Proofs about the data-flow analysis: single reads, driver maps with aligned writes,
    joins. *)
From Coq Require Import Sorted.
From Verif Require Import Base M_Graph M_Range M_Netlist M_Annot M_Interval M_Heap M_Drivers M_Pending
  M_DFA S_Interval S_Drivers S_DFA P_Interval P_Heap P_Drivers P_DriversX.
Local Open Scope Z_scope.

Lemma bit_lu b i : bit b i <-> lower b <= i <= upper b.
Proof. reflexivity. Qed.

Lemma bitb_spec b i : bitb b i = true <-> bit b i.
Proof. unfold bitb, bit. rewrite andb_true_iff, !Z.leb_le. reflexivity. Qed.

Lemma lower_range a b : a <= b -> lower (Range a b) = a.
Proof. unfold lower; cbn; lia. Qed.
Lemma upper_range a b : a <= b -> upper (Range a b) = b.
Proof. unfold upper; cbn; lia. Qed.

Lemma contains_spec a b : contains a b = true <-> lower a <= lower b /\ upper b <= upper a.
Proof. unfold contains. rewrite andb_true_iff, !Z.leb_le. reflexivity. Qed.

Lemma covers_has d i : allvalid d -> (forall x, In x (ivs d) -> get (lists d) (ival x) <> Some []) ->
  (covers (ivs d) i <-> exists n, has d i n).
Proof.
  intros V N. split.
  - intros (x & I & C). destruct (allvalid_some d x V I) as (l & G).
    destruct l as [|n l]; [now destruct (N x I)|]. exists n, x, (n :: l). cbn. auto.
  - intros (n & x & l & I & C & _). exists x. auto.
Qed.

(** * One read *)
(** No entry meets the read without containing it or lying inside it. *)
Definition fits (d : dmap) (b : range) : Prop :=
  forall x, In x (ivs d) -> ilo x <= upper b -> lower b <= ihi x ->
    (ilo x <= lower b /\ upper b <= ihi x) \/ (lower b <= ilo x /\ ihi x <= upper b).

(** [rstep s s' ds ps]: only edges and pending R-values were added. *)
Definition rstep (s s' : st) (ds : list dep) (ps : list pend) : Prop :=
  cur s' = cur s /\
  fxs s' = FX (fnext (fxs s)) (fnodes (fxs s)) (fdeps (fxs s) ++ ds) (fpend (fxs s) ++ ps) (flv (fxs s)).

Lemma rstep_refl s : rstep s s [] [].
Proof. split; [reflexivity|]. rewrite !app_nil_r. now destruct (fxs s). Qed.
Lemma rstep_trans s1 s2 s3 d1 p1 d2 p2 :
  rstep s1 s2 d1 p1 -> rstep s2 s3 d2 p2 -> rstep s1 s3 (d1 ++ d2) (p1 ++ p2).
Proof.
  intros [A B] [C D]. split; [congruence|]. rewrite D, B. cbn. now rewrite !app_assoc.
Qed.

Section Analysis.
Variable nm : nat -> str.
Variable external : option nat.

Lemma rv_loop_spec d n sy b : allvalid d -> forall its,
  (forall x, In x its -> In x (ivs d)) -> 
  exists stop ds, rv_loop nm d n sy b its = DOk (stop, ds) /\
    (stop = true -> exists x, In x its /\ contains (Range (ilo x) (ihi x)) b = true) /\
    (forall e, In e ds -> exists x l k, In x its /\ get (lists d) (ival x) = Some l /\ In k l /\
       e = DDep k n (Some (nm sy)) b EKNone) /\
    (forall x l k, In x its -> get (lists d) (ival x) = Some l -> In k l ->
       (contains b (Range (ilo x) (ihi x)) = true \/ contains (Range (ilo x) (ihi x)) b = true) ->
       (forall y, In y its -> contains (Range (ilo y) (ihi y)) b = true -> its = [y]) ->
       In (DDep k n (Some (nm sy)) b EKNone) ds).
Proof.
  intros V. induction its as [|it its IH]; intros Hi; cbn [rv_loop].
  - exists false, []. split; [reflexivity|]. split; [discriminate|]. split; [easy|]. intros x l k [].
  - destruct (allvalid_some d it V) as (l0 & G0); [apply Hi; now left|].
    unfold getDriverList. rewrite G0. cbn [dbind].
    destruct (contains (Range (ilo it) (ihi it)) b) eqn:C.
    + exists true, (addDriversToNode nm l0 n sy b). split; [reflexivity|]. split.
      { intros _. exists it. split; [now left|exact C]. }
      split.
      * intros e I. unfold addDriversToNode in I. apply in_map_iff in I. destruct I as (k & <- & I).
        exists it, l0, k. split; [now left|auto].
      * intros x l k I G Ik _ H. specialize (H it (or_introl eq_refl) C).
        rewrite H in I. destruct I as [<-|[]]. unfold addDriversToNode. apply in_map_iff.
        exists k. split; [reflexivity|congruence].
    + destruct IH as (stop & ds & E & S1 & S2 & S3); [intros x I; apply Hi; now right|].
      rewrite E. cbn [dbind]. exists stop. eexists. split; [reflexivity|]. split; [|split].
      * intros Q. destruct (S1 Q) as (x & I & Cx). exists x. split; [now right|exact Cx].
      * intros e I. apply in_app_or in I. destruct I as [I|I].
        -- destruct (contains b (Range (ilo it) (ihi it))); [|easy].
           unfold addDriversToNode in I. apply in_map_iff in I. destruct I as (k & <- & I).
           exists it, l0, k. split; [now left|auto].
        -- destruct (S2 e I) as (x & l & k & I' & R). exists x, l, k. split; [now right|exact R].
      * intros x l k I G Ik K H. apply in_or_app. destruct I as [<-|I].
        -- left. destruct K as [K|K]; [|congruence]. rewrite K. unfold addDriversToNode.
           apply in_map_iff. exists k. split; [reflexivity|congruence].
        -- right. apply (S3 x l k I G Ik K). intros y Iy Cy.
           specialize (H y (or_intror Iy) Cy). injection H as H1 H2. subst its. easy.
Qed.

Lemma fold_addRvalue sy (n : nat) : forall xs s,
  rstep s (fold_left (fun s2 (x : iv nat) => addRvalue nm s2 sy (Range (ilo x) (ihi x)) (Some n)) xs s) []
    (map (fun x => Pend sy (nm sy) (Range (ilo x) (ihi x)) (Some n) EKNone) xs).
Proof.
  induction xs as [|x xs IH]; intros s; cbn [fold_left map]; [apply rstep_refl|].
  apply (rstep_trans s (addRvalue nm s sy (Range (ilo x) (ihi x)) (Some n)) _ []
           [Pend sy (nm sy) (Range (ilo x) (ihi x)) (Some n) EKNone]); [|apply IH].
  split; [reflexivity|]. cbn. now rewrite app_nil_r.
Qed.

(** What a list of reads adds, for a current node [m] and definitions [D]. *)
Record rds (D : nat -> dmap) (m : nat) (rs : list ref) (ds : list dep) (ps : list pend) : Prop := {
  rds_sound : forall e, In e ds -> exists sy b n i, e = DDep n m (Some (nm sy)) b EKNone /\
    In (sy, b) rs /\ bit b i /\ has (D sy) i n;
  rds_complete : forall sy b i n, In (sy, b) rs -> fits (D sy) b -> bit b i -> has (D sy) i n ->
    In (DDep n m (Some (nm sy)) b EKNone) ds;
  rds_psound : forall x, In x ps -> pnode x = Some m /\ exists b, In (psym x, b) rs /\
    forall i, bit (pbounds x) i ->
      bit b i /\ (~ covers (ivs (D (psym x))) i \/ i = upper b);
  rds_pcomplete : forall sy b i, In (sy, b) rs -> bit b i -> ~ covers (ivs (D sy)) i ->
    exists x, In x ps /\ psym x = sy /\ bit (pbounds x) i;
  rds_pref : forall x, In x ps -> pref x = nm (psym x) /\ pkind x = EKNone }.

Lemma rds_nil D m : rds D m [] [] [].
Proof. split; try easy. Qed.
Lemma rds_app D m r1 d1 p1 r2 d2 p2 : rds D m r1 d1 p1 -> rds D m r2 d2 p2 ->
  rds D m (r1 ++ r2) (d1 ++ d2) (p1 ++ p2).
Proof.
  intros A B. split.
  - intros e I. apply in_app_or in I. destruct I as [I|I].
    + destruct (rds_sound _ _ _ _ _ A e I) as (sy & b & n & i & E & J & R). exists sy, b, n, i.
      rewrite in_app_iff. auto.
    + destruct (rds_sound _ _ _ _ _ B e I) as (sy & b & n & i & E & J & R). exists sy, b, n, i.
      rewrite in_app_iff. auto.
  - intros sy b i n I F C H. apply in_app_iff. apply in_app_or in I. destruct I as [I|I].
    + left. now apply (rds_complete _ _ _ _ _ A sy b i n).
    + right. now apply (rds_complete _ _ _ _ _ B sy b i n).
  - intros x I. apply in_app_or in I. destruct I as [I|I].
    + destruct (rds_psound _ _ _ _ _ A x I) as (E & b & J & R). split; [exact E|]. exists b.
      rewrite in_app_iff. auto.
    + destruct (rds_psound _ _ _ _ _ B x I) as (E & b & J & R). split; [exact E|]. exists b.
      rewrite in_app_iff. auto.
  - intros sy b i I C N. apply in_app_or in I. destruct I as [I|I].
    + destruct (rds_pcomplete _ _ _ _ _ A sy b i I C N) as (x & J & R). exists x.
      rewrite in_app_iff. auto.
    + destruct (rds_pcomplete _ _ _ _ _ B sy b i I C N) as (x & J & R). exists x.
      rewrite in_app_iff. auto.
  - intros x I. apply in_app_or in I. destruct I as [I|I]; [apply (rds_pref _ _ _ _ _ A x I)|apply (rds_pref _ _ _ _ _ B x I)].
Qed.

(** Ids that a trace may mention. *)
Definition dlt (N : nat) (e : dep) : Prop :=
  match e with DPlain a b => (a < N)%nat /\ (b < N)%nat | DDep a b _ _ _ => (a < N)%nat /\ (b < N)%nat end.
Definition plt (N : nat) (x : pend) : Prop := match pnode x with Some m => (m < N)%nat | None => True end.

Lemma defs_some a sy d : nth_error (adefs a) sy = Some d -> defs a sy = d.
Proof. intros E. unfold defs. now apply nth_error_nth. Qed.
Lemma defs_none a sy : nth_error (adefs a) sy = None -> defs a sy = dm_empty.
Proof. intros E. apply nth_error_None in E. unfold defs. now apply nth_overflow. Qed.

Lemma handleRvalue_node s sy b m : anode (cur s) = Some m ->
  dok (defs (cur s) sy) -> allvalid (defs (cur s) sy) ->
  exists s' ds ps, handleRvalue nm external s sy b = DOk s' /\ rstep s s' ds ps /\
    rds (defs (cur s)) m [(sy, b)] ds ps.
Proof.
  intros Hm K V. unfold handleRvalue. pose proof (lower_upper b) as LU.
  destruct (nth_error (adefs (cur s)) sy) as [d|] eqn:E.
  - rewrite (defs_some _ _ _ E) in K, V. rewrite Hm.
    destruct (rv_loop_spec d m sy b V (dm_find d b)) as (stop & ds & El & S1 & S2 & S3).
    { intros x I. unfold dm_find, toPair in I. cbn [fst snd] in I. apply in_ivfind in I. tauto. }
    rewrite El. cbn [dbind].
    assert (Hit : forall x, In x (dm_find d b) <-> In x (ivs d) /\ ilo x <= upper b /\ lower b <= ihi x).
    { intros x. unfold dm_find, toPair. cbn [fst snd]. apply in_ivfind. }
    assert (Ne : forall x, In x (ivs d) -> ilo x <= ihi x) by (intros x I; apply (proj1 (proj1 K) x I)).
    assert (Rc : forall x, In x (ivs d) ->
              lower (Range (ilo x) (ihi x)) = ilo x /\ upper (Range (ilo x) (ihi x)) = ihi x).
    { intros x I. specialize (Ne x I). now rewrite lower_range, upper_range. }
    assert (Sound : forall e, In e ds -> exists sy' b' n i, e = DDep n m (Some (nm sy')) b' EKNone /\
              In (sy', b') [(sy, b)] /\ bit b' i /\ has (defs (cur s) sy') i n).
    { intros e I. destruct (S2 e I) as (x & l & k & Ix & G & Ik & ->).
      apply Hit in Ix. destruct Ix as (Ix & A & B). specialize (Ne x Ix).
      exists sy, b, k, (Z.max (ilo x) (lower b)). split; [reflexivity|]. split; [now left|].
      split; [rewrite bit_lu; lia|]. rewrite (defs_some _ _ _ E). exists x, l.
      split; [exact Ix|]. split; [unfold inside; lia|auto]. }
    assert (Complete : forall sy' b' i n, In (sy', b') [(sy, b)] -> fits (defs (cur s) sy') b' ->
              bit b' i -> has (defs (cur s) sy') i n -> In (DDep n m (Some (nm sy')) b' EKNone) ds).
    { intros sy' b' i n [[= <- <-]|[]] F Bi (x & l & I & C & G & Ik).
      rewrite (defs_some _ _ _ E) in *. rewrite bit_lu in Bi. unfold inside in C.
      apply (S3 x l n); auto.
      - apply Hit. split; [auto|lia].
      - rewrite !contains_spec. destruct (Rc x I) as [-> ->].
        destruct (F x I); [lia|lia|right|left]; lia.
      - intros y Iy Cy. apply contains_spec in Cy. apply Hit in Iy. destruct Iy as (Iy & Oy).
        destruct (Rc y Iy) as [R1 R2]. rewrite R1, R2 in Cy.
        assert (All : forall z, In z (dm_find d b) -> z = y).
        { intros z Iz. apply Hit in Iz. destruct Iz as (Iz & Oz).
          destruct (wf_other (ivs d) y z (proj1 K) Iy Iz) as [->|D]; [reflexivity|].
          pose proof (Ne z Iz). lia. }
        assert (ND : NoDup (dm_find d b)) by (apply NoDup_filter, wf_NoDup, K).
        assert (Iyf : In y (dm_find d b)) by (apply Hit; auto).
        destruct (dm_find d b) as [|z r]; [easy|].
        assert (z = y) by (apply All; now left). subst z. f_equal.
        destruct r as [|z r]; [reflexivity|]. inversion ND as [|? ? N1 N2]. subst.
        destruct N1. left. apply All. right. now left. }
    destruct stop.
    + eexists _, ds, []. split; [reflexivity|]. split.
      { split; [reflexivity|]. cbn. now rewrite app_nil_r. }
      split; [exact Sound|exact Complete|easy| |easy].
      intros sy' b' i [[= <- <-]|[]] Bi N. destruct (S1 eq_refl) as (x & I & C).
      apply Hit in I. destruct I as [I _]. apply contains_spec in C. destruct (Rc x I) as [R1 R2].
      rewrite R1, R2 in C. rewrite (defs_some _ _ _ E) in N. destruct N. exists x.
      split; [exact I|]. rewrite bit_lu in Bi. unfold inside. lia.
    + set (rest := difference [IV (lower b) (upper b) 0%nat] (ivs d)).
      pose proof (fold_addRvalue sy m rest (emit s ds)) as R.
      eexists _, ds, _. split; [reflexivity|]. split.
      { assert (R0 : rstep s (emit s ds) ds []) by (split; [reflexivity|cbn; now rewrite app_nil_r]).
        pose proof (rstep_trans _ _ _ _ _ _ _ R0 R) as T. rewrite app_nil_r in T. exact T. }
      assert (Dx : forall i, covers rest i <->
                exists x, In x [IV (lower b) (upper b) 0%nat] /\ inside x i /\ (~ covers (ivs d) i \/
                  (i = ihi x /\ exists r, In r (ivs d) /\ ihi r = ihi x - 1 /\ ilo x <= ihi r))).
      { intros i. apply difference_exact; [|apply K]. intros x [<-|[]]. exact LU. }
      assert (Nr : nonempty_ivs rest).
      { destruct (@difference_wf nat [IV (lower b) (upper b) 0%nat] (ivs d)) as [A _]; [|exact A].
        apply wf_cons. split; [exact LU|]. split; [intros y []|apply wf_nil]. }
      split; [exact Sound|exact Complete| | |].
      * intros x I. apply in_map_iff in I. destruct I as (y & <- & Iy). cbn [pnode psym pbounds].
        split; [reflexivity|]. exists b. split; [now left|]. intros i Bi. rewrite bit_lu in Bi.
        specialize (Nr y Iy). rewrite lower_range, upper_range in Bi by exact Nr.
        assert (C : covers rest i) by (exists y; split; [exact Iy|exact Bi]).
        apply Dx in C. destruct C as (x & [<-|[]] & In1 & In2). unfold inside in In1.
        cbn [ilo ihi] in *. rewrite (defs_some _ _ _ E). split; [rewrite bit_lu; lia|]. tauto.
      * intros sy' b' i [[= <- <-]|[]] Bi N. rewrite (defs_some _ _ _ E) in N.
        assert (C : covers rest i).
        { apply Dx. eexists. split; [now left|]. split; [exact Bi|]. now left. }
        destruct C as (y & Iy & Cy). eexists. split; [apply in_map_iff; exists y; split; [reflexivity|exact Iy]|].
        cbn [psym pbounds]. split; [reflexivity|]. rewrite bit_lu. specialize (Nr y Iy).
        rewrite lower_range, upper_range by exact Nr. exact Cy.
      * intros x I. apply in_map_iff in I. destruct I as (y & <- & _). auto.
  - rewrite Hm. cbn [orElse]. eexists _, [], [_]. split; [reflexivity|]. split.
    { split; [reflexivity|]. cbn. now rewrite app_nil_r. }
    split; [easy| | | |].
    + intros sy' b' i n [[= <- <-]|[]] F Bi (x & l & I & _). rewrite (defs_none _ _ E) in I. easy.
    + intros x [<-|[]]. cbn [pnode psym pbounds]. split; [reflexivity|]. exists b. split; [now left|].
      intros i Bi. split; [exact Bi|]. left. rewrite (defs_none _ _ E). intros (y & [] & _).
    + intros sy' b' i [[= <- <-]|[]] Bi N. eexists. split; [now left|]. cbn. auto.
    + intros x [<-|[]]. auto.
Qed.

(** Whatever the current node, a read on a map without stale handles succeeds and changes
    nothing but the trace. *)
Lemma handleRvalue_any s sy b N : dok (defs (cur s) sy) -> allvalid (defs (cur s) sy) ->
  (forall i n, has (defs (cur s) sy) i n -> (n < N)%nat) ->
  (forall m, anode (cur s) = Some m -> (m < N)%nat) -> (forall m, external = Some m -> (m < N)%nat) ->
  exists s' ds ps, handleRvalue nm external s sy b = DOk s' /\ rstep s s' ds ps /\
    Forall (dlt N) ds /\ Forall (plt N) ps.
Proof.
  intros K V HN Hn He. destruct (anode (cur s)) as [m|] eqn:Em.
  - destruct (handleRvalue_node s sy b m Em K V) as (s' & ds & ps & E & R & S).
    exists s', ds, ps. split; [exact E|]. split; [exact R|]. rewrite !Forall_forall. split.
    + intros e I. destruct (rds_sound _ _ _ _ _ S e I) as (sy' & b' & n & i & -> & J & _ & H).
      destruct J as [[= <- <-]|[]]. cbn. split; [now apply (HN i)|now apply Hn].
    + intros x I. destruct (rds_psound _ _ _ _ _ S x I) as (Q & _). unfold plt. rewrite Q.
      now apply Hn.
  - unfold handleRvalue. rewrite Em. cbn [orElse].
    assert (G : rstep s (addRvalue nm s sy b external) [] [Pend sy (nm sy) b external EKNone]).
    { split; [reflexivity|]. cbn. now rewrite app_nil_r. }
    destruct (nth_error (adefs (cur s)) sy); eexists _, [], _; (split; [reflexivity|]);
      (split; [exact G|]); (split; [constructor|]); constructor; try constructor;
      unfold plt; cbn [pnode]; destruct external as [e|]; auto.
Qed.
End Analysis.
