(** Proofs about the data-flow analysis: reaching definitions of structured blocks whose
    writes are aligned. *)
From Coq Require Import Sorted.
From Verif Require Import Base M_Graph M_Range M_Netlist M_Annot M_Interval M_Heap M_Drivers M_Pending
  M_DFA S_Interval S_Drivers S_DFA P_Interval P_Heap P_Drivers P_DriversX P_DFA.
Local Open Scope Z_scope.

(** * Driver maps whose entries are the written ranges *)
Definition inW (W : trace) (sy : nat) (lo hi : Z) : Prop :=
  exists l b, In (l, sy, b) W /\ lo = lower b /\ hi = upper b.
Record okd (W : trace) (sy : nat) (d : dmap) : Prop := {
  ok_dok : dok d;
  ok_uns : unshared d;
  ok_in : forall x, In x (ivs d) -> inW W sy (ilo x) (ihi x);
  ok_ne : forall x, In x (ivs d) -> get (lists d) (ival x) <> Some [] }.

Lemma okd_empty W sy : okd W sy dm_empty.
Proof.
  split; [apply dok_empty| |intros x []|intros x []].
  split; intros x; cbn; tauto.
Qed.

Lemma inW_cases W sy lo hi lo' hi' : aligned_writes W -> inW W sy lo hi -> inW W sy lo' hi' ->
  (lo = lo' /\ hi = hi') \/ hi < lo' \/ hi' < lo.
Proof.
  intros A (l & b & I & -> & ->) (l' & b' & I' & -> & ->). exact (A l sy b l' b' I I').
Qed.

Lemma addDrivers_in W sy d b dl m d' : aligned_writes W -> dok d ->
  (forall x, In x (ivs d) -> inW W sy (ilo x) (ihi x)) -> inW W sy (lower b) (upper b) ->
  addDrivers d b dl m = DOk d' -> forall x, In x (ivs d') -> inW W sy (ilo x) (ihi x).
Proof.
  intros A K Hin Hb E. pose proof (lower_upper b) as LU. unfold addDrivers in E. cbv zeta in E.
  rewrite dm_find_range in E by exact LU.
  destruct (ivfind (lower b) (upper b) (ivs d)) as [|x rest] eqn:F; cbn [add_loop Nat.add] in E.
  - destruct (final_insert dl d (lower b) (upper b) K LU F) as (mm & h & E' & _).
    rewrite E' in E. injection E as <-. cbn [ivs]. intros x I. apply in_ins in I.
    destruct I as [->|I]; [exact Hb|auto].
  - assert (I : In x (ivfind (lower b) (upper b) (ivs d))) by (rewrite F; now left).
    apply in_ivfind in I. destruct I as (I & O1 & O2).
    destruct (inW_cases W sy _ _ _ _ A (Hin x I) Hb) as [[Q1 Q2]|Q]; [|lia].
    unfold body in E.
    assert (Q : range_eqb (Range (ilo x) (ihi x)) (Range (lower b) (upper b)) = true).
    { unfold range_eqb. cbn. rewrite Q1, Q2, !Z.eqb_refl. reflexivity. }
    rewrite Q in E. destruct (getDriverList d (ival x)) as [ex|]; [|discriminate].
    cbn [dbind] in E. unfold setDriverList in E.
    destruct (put (lists d) (ival x) _) as [mm|]; [|discriminate]. cbn [dbind] in E.
    injection E as <-. cbn [ivs]. exact Hin.
Qed.

Lemma add_okd W sy d b dl m : aligned_writes W -> okd W sy d -> inW W sy (lower b) (upper b) ->
  dl <> [] -> exists d', addDrivers d b dl m = DOk d' /\ okd W sy d' /\
    forall i n, has d' i n <->
      (bit b i /\ (In n dl \/ (m = true /\ has d i n))) \/ (~ bit b i /\ has d i n).
Proof.
  intros A [K U Hi Ne] Hb Hd.
  destruct (addDrivers_exact d b dl m K U) as (d' & E & K' & U' & C & H).
  { intros y I [Q1 Q2]. pose proof (lower_upper b). pose proof (proj1 (proj1 K) y I). destruct (inW_cases W sy _ _ _ _ A (Hi y I) Hb); lia. }
  exists d'. split; [exact E|]. split; [|exact H]. split; auto.
  - exact (addDrivers_in W sy d b dl m d' A K Hi Hb E).
  - intros x I G. pose proof (proj1 (proj1 K') x I) as Nx.
    assert (Cx : covers (ivs d') (ilo x)) by (exists x; split; [exact I|unfold inside; lia]).
    assert (X : exists n, has d' (ilo x) n).
    { apply C in Cx. destruct dl as [|n0 dl]; [congruence|].
      destruct (Z_le_dec (lower b) (ilo x)) as [L1|L1];
        [destruct (Z_le_dec (ilo x) (upper b)) as [L2|L2]|].
      - exists n0. apply H. left. split; [unfold bit; fold (lower b) (upper b); lia|]. left. now left.
      - destruct Cx as [Cx|Cx]; [|lia]. apply covers_has in Cx; [|apply U|exact Ne].
        destruct Cx as (n & Hn). exists n. apply H. right. split; [lia|exact Hn].
      - destruct Cx as [Cx|Cx]; [|lia]. apply covers_has in Cx; [|apply U|exact Ne].
        destruct Cx as (n & Hn). exists n. apply H. right. split; [lia|exact Hn]. }
    destruct X as (n & y & l & Iy & Cy & Gy & Nl).
    assert (x = y).
    { apply (wf_two (ivs d') x y (ilo x)); auto; [apply K'|unfold inside; lia]. }
    subst y. rewrite G in Gy. injection Gy as <-. easy.
Qed.

(** * States *)
Definition okA (W : trace) (a : astate) : Prop := forall sy, okd W sy (defs a sy).

Lemma nth_put : forall l i d j,
  nth j (put_defs l i d) dm_empty = if Nat.eqb j i then d else nth j l dm_empty.
Proof.
  induction l as [|x l IH]; intros i; [|]; revert dependent i.
  - induction i as [|i IHi]; intros d j; cbn [put_defs].
    + destruct j as [|[|j]]; reflexivity.
    + destruct j as [|j]; [reflexivity|]. cbn [nth Nat.eqb]. rewrite IHi.
      destruct (Nat.eqb j i); [reflexivity|]. now destruct j.
  - intros i d j. destruct i as [|i], j as [|j]; cbn [put_defs nth Nat.eqb]; auto.
Qed.

Definition hasA (a : astate) (sy : nat) (i : Z) (n : nat) : Prop := has (defs a sy) i n.

Lemma track_ok W a sy b dl m : aligned_writes W -> okA W a -> inW W sy (lower b) (upper b) ->
  dl <> [] -> exists a', trackDrivers a sy b dl m = DOk a' /\ okA W a' /\
    anode a' = anode a /\ acond a' = acond a /\ areach a' = areach a /\
    forall sy' i n, hasA a' sy' i n <->
      (sy' = sy /\ bit b i /\ (In n dl \/ (m = true /\ hasA a sy' i n))) \/
      (~ (sy' = sy /\ bit b i) /\ hasA a sy' i n).
Proof.
  intros A O Hb Hd. unfold trackDrivers.
  destruct (add_okd W sy (defs a sy) b dl m A (O sy) Hb Hd) as (d & E & Od & H).
  rewrite E. cbn [dbind]. eexists. split; [reflexivity|]. cbn [anode acond areach].
  assert (D : forall sy', defs (AS (put_defs (adefs a) sy d) (anode a) (acond a) (areach a)) sy' =
                     if Nat.eqb sy' sy then d else defs a sy').
  { intros sy'. unfold defs. cbn [adefs]. apply nth_put. }
  split; [|split; [reflexivity|split; [reflexivity|split; [reflexivity|]]]].
  - intros sy'. rewrite D. destruct (Nat.eqb_spec sy' sy) as [->|]; auto.
  - intros sy' i n. unfold hasA. rewrite D. destruct (Nat.eqb_spec sy' sy) as [->|N].
    + rewrite H. unfold bit. destruct (Z_le_dec (lower b) i), (Z_le_dec i (upper b)); tauto.
    + tauto.
Qed.

(** * The trace *)
Definition okF (f : fx) : Prop :=
  (forall n k, In (n, k) (fnodes f) -> (n < fnext f)%nat) /\
  (forall n k k', In (n, k) (fnodes f) -> In (n, k') (fnodes f) -> k = k').
Definition olt (N : nat) (x : option nat) : Prop := match x with Some n => (n < N)%nat | None => True end.
Definition known (f : fx) (a : astate) : Prop :=
  forall sy i n, hasA a sy i n -> exists l, In (n, KAssign l) (fnodes f).
Record okSA (W : trace) (f : fx) (a : astate) : Prop := {
  sa_ok : okA W a; sa_known : known f a; sa_node : olt (fnext f) (anode a); sa_cond : olt (fnext f) (acond a) }.

Definition ext (f f' : fx) : Prop :=
  (fnext f <= fnext f')%nat /\
  exists more, fnodes f' = fnodes f ++ more /\ forall n k, In (n, k) more -> (fnext f <= n)%nat.
Lemma ext_refl f : ext f f.
Proof. split; [lia|]. exists []. rewrite app_nil_r. split; [reflexivity|easy]. Qed.
Lemma ext_trans f1 f2 f3 : ext f1 f2 -> ext f2 f3 -> ext f1 f3.
Proof.
  intros (L1 & m1 & E1 & H1) (L2 & m2 & E2 & H2). split; [lia|]. exists (m1 ++ m2).
  split; [now rewrite E2, E1, app_assoc|]. intros n k I. apply in_app_or in I.
  destruct I as [I|I]; [eauto|]. specialize (H2 n k I). lia.
Qed.
Lemma ext_in f f' n k : ext f f' -> In (n, k) (fnodes f) -> In (n, k) (fnodes f').
Proof. intros (_ & m & E & _) I. rewrite E. apply in_or_app. now left. Qed.
Lemma ext_old f f' n k : ext f f' -> (n < fnext f)%nat -> In (n, k) (fnodes f') -> In (n, k) (fnodes f).
Proof.
  intros (_ & m & E & H) L I. rewrite E in I. apply in_app_or in I. destruct I as [I|I]; [exact I|].
  specialize (H n k I). lia.
Qed.
Lemma olt_ext f f' x : ext f f' -> olt (fnext f) x -> olt (fnext f') x.
Proof. intros (L & _) H. destruct x; cbn in *; lia. Qed.
Lemma okSA_ext W f f' a : ext f f' -> okSA W f a -> okSA W f' a.
Proof.
  intros X [O K N C]. split; auto; try (eapply olt_ext; eauto).
  intros sy i n H. destruct (K sy i n H) as (l & I). exists l. eapply ext_in; eauto.
Qed.

(** The labels of the assignments that drive a bit. *)
Definition drv (f : fx) (a : astate) (sy : nat) (i : Z) (l : nat) : Prop :=
  exists n, hasA a sy i n /\ In (n, KAssign l) (fnodes f).

Lemma drv_ext f f' a sy i l : okF f -> ext f f' -> known f a -> (drv f a sy i l <-> drv f' a sy i l).
Proof.
  intros [L _] X K. split.
  - intros (n & H & I). exists n. split; [exact H|eapply ext_in; eauto].
  - intros (n & H & I). exists n. split; [exact H|]. eapply ext_old; eauto.
    destruct (K sy i n H) as (l' & I'). exact (L n _ I').
Qed.

Lemma covers_drv W f a sy i : okSA W f a -> (covers (ivs (defs a sy)) i <-> exists l, drv f a sy i l).
Proof.
  intros [O K _ _]. rewrite covers_has; [|apply (ok_uns _ _ _ (O sy))|apply (ok_ne _ _ _ (O sy))].
  split.
  - intros (n & H). destruct (K sy i n H) as (l & I). exists l, n. auto.
  - intros (l & n & H & _). exists n. exact H.
Qed.

Definition grow (f f' : fx) (ds : list dep) (ps : list pend) (ls : list (nat * range * nat)) : Prop :=
  ext f f' /\ fdeps f' = fdeps f ++ ds /\ fpend f' = fpend f ++ ps /\ flv f' = flv f ++ ls /\
  Forall (dlt (fnext f')) ds /\ Forall (plt (fnext f')) ps /\
  Forall (fun x => (snd x < fnext f')%nat) ls.

Lemma grow_refl f : grow f f [] [] [].
Proof.
  unfold grow. rewrite !app_nil_r. repeat split; try constructor; auto.
  exists []. rewrite app_nil_r. split; [reflexivity|easy].
Qed.
Lemma grow_trans f1 f2 f3 d1 p1 l1 d2 p2 l2 : grow f1 f2 d1 p1 l1 -> grow f2 f3 d2 p2 l2 ->
  grow f1 f3 (d1 ++ d2) (p1 ++ p2) (l1 ++ l2).
Proof.
  intros (X1 & A1 & B1 & C1 & D1 & E1 & F1) (X2 & A2 & B2 & C2 & D2 & E2 & F2).
  split; [eapply ext_trans; eauto|]. rewrite A2, A1, B2, B1, C2, C1, !app_assoc.
  split; [reflexivity|]. split; [reflexivity|]. split; [reflexivity|].
  destruct X2 as [L _]. rewrite !Forall_app. repeat split; auto.
  - eapply Forall_impl; [|exact D1]. intros [a b|a b ? ? ?]; cbn; lia.
  - eapply Forall_impl; [|exact E1]. intros x. unfold plt. destruct (pnode x); [lia|auto].
  - eapply Forall_impl; [|exact F1]. cbn. intros x. lia.
Qed.

Lemma grow_ext f f' ds ps ls : grow f f' ds ps ls -> ext f f'.
Proof. intros H. apply H. Qed.

(** * Last writes on paths *)
Lemma last_w_app t1 t2 sy i :
  last_w (t1 ++ t2) sy i = match last_w t2 sy i with Some x => Some x | None => last_w t1 sy i end.
Proof.
  induction t1 as [|[[l sy'] b] t1 IH]; cbn [last_w app]; [now destruct (last_w t2 sy i)|].
  rewrite IH. now destruct (last_w t2 sy i).
Qed.
Lemma in_cat t P Q : In t (cat P Q) <-> exists a b, In a P /\ In b Q /\ t = a ++ b.
Proof.
  unfold cat. rewrite in_flat_map. split.
  - intros (a & I & J). apply in_map_iff in J. destruct J as (b & <- & J). exists a, b. auto.
  - intros (a & b & I & J & ->). exists a. split; [exact I|]. now apply in_map.
Qed.
Lemma cat_ne P Q : cat P Q <> [] <-> P <> [] /\ Q <> [].
Proof.
  split.
  - intros H. destruct (cat P Q) as [|t r] eqn:E; [congruence|].
    assert (I : In t (cat P Q)) by (rewrite E; now left). apply in_cat in I.
    destruct I as (a & b & I & J & _). split; intros ->; easy.
  - intros [HP HQ] E. destruct P as [|a P]; [congruence|]. destruct Q as [|b Q]; [congruence|].
    assert (I : In (a ++ b) (cat (a :: P) (b :: Q))) by (apply in_cat; exists a, b; cbn; auto).
    rewrite E in I. easy.
Qed.

(** The drivers of a bit after one of the paths [T], when [B] are the drivers before; and:
    the bit is not written on any of them and has no drivers before. *)
Definition base := nat -> Z -> nat -> Prop.
Definition some_path (B : base) (T : list trace) (sy : nat) (i : Z) (l : nat) : Prop :=
  exists t, In t T /\ (last_w t sy i = Some l \/ (last_w t sy i = None /\ B sy i l)).
Definition no_path (B : base) (T : list trace) (sy : nat) (i : Z) : Prop :=
  forall t, In t T -> last_w t sy i = None /\ forall l, ~ B sy i l.

Lemma some_cat (B B1 : base) T1 T sy i l :
  (forall l, B1 sy i l <-> some_path B T1 sy i l) -> T1 <> [] ->
  (some_path B (cat T1 T) sy i l <-> some_path B1 T sy i l).
Proof.
  intros H N. split.
  - intros (t & I & L). apply in_cat in I. destruct I as (a & b & I & J & ->).
    rewrite last_w_app in L. exists b. split; [exact J|].
    destruct (last_w b sy i) as [x|]; [destruct L as [L|[L _]]; [auto|discriminate]|].
    right. split; [reflexivity|]. apply H. exists a. auto.
  - intros (b & J & [L|[L Q]]).
    + destruct T1 as [|a T1]; [congruence|]. exists (a ++ b). rewrite last_w_app, L. split; [|auto].
      apply in_cat. exists a, b. cbn. auto.
    + apply H in Q. destruct Q as (a & I & Q). exists (a ++ b). rewrite last_w_app, L. split; [|auto].
      apply in_cat. exists a, b. auto.
Qed.
Lemma no_cat (B B1 : base) T1 T sy i :
  (forall l, B1 sy i l <-> some_path B T1 sy i l) -> T1 <> [] -> T <> [] ->
  (no_path B (cat T1 T) sy i <-> no_path B1 T sy i).
Proof.
  intros H N NT. split.
  - intros Q b J.
    assert (Qa : forall a, In a T1 -> last_w a sy i = None /\ last_w b sy i = None /\ forall l, ~ B sy i l).
    { intros a I. destruct (Q (a ++ b)) as [L R]; [apply in_cat; exists a, b; auto|].
      rewrite last_w_app in L. destruct (last_w b sy i); [discriminate|]. auto. }
    split.
    + destruct T1 as [|a T1]; [congruence|]. destruct (Qa a); [now left|tauto].
    + intros l Ql. apply H in Ql. destruct Ql as (a & I & R). destruct (Qa a I) as (R1 & _ & R2).
      destruct R as [R|[_ R]]; [congruence|]. exact (R2 l R).
  - intros Q t I. apply in_cat in I. destruct I as (a & b & I & J & ->). rewrite last_w_app.
    destruct (Q b J) as [-> R]. split.
    + destruct (last_w a sy i) as [x|] eqn:E; [|reflexivity]. destruct (R x). apply H.
      exists a. auto.
    + intros l Bl. destruct (last_w a sy i) as [x|] eqn:E.
      * destruct (R x). apply H. exists a. auto.
      * destruct (R l). apply H. exists a. auto.
Qed.

(** * Results of statements *)
(** [arm W B rb f a T]: the state [a] is reached from a state with drivers [B] (reachable
    if [rb]) over the paths [T]. *)
Record arm (W : trace) (B : base) (rb : bool) (f : fx) (a : astate) (T : list trace) : Prop := {
  arm_ok : okSA W f a;
  arm_dead : rb = false -> areach a = false;
  arm_live : rb = true -> (areach a = true <-> T <> []);
  arm_drv : rb = true -> T <> [] -> forall sy i l, drv f a sy i l <-> some_path B T sy i l }.

Lemma arm_ext W B rb f f' a T : okF f -> ext f f' -> arm W B rb f a T -> arm W B rb f' a T.
Proof.
  intros O X [S D L R]. split; auto; [eapply okSA_ext; eauto|].
  intros E N sy i l. rewrite <- (drv_ext f f' a sy i l O X (sa_known _ _ _ S)). auto.
Qed.
Lemma arm_self W f a : okSA W f a -> arm W (drv f a) (areach a) f a [[]].
Proof.
  intros S. split; auto; [intros ->; split; [discriminate|reflexivity]|].
  intros _ _ sy i l. split.
  - intros H. exists []. split; [now left|]. right. auto.
  - intros (t & [<-|[]] & [Q|[_ Q]]); [discriminate|exact Q].
Qed.
Lemma hasA_nil n c r sy i k : ~ hasA (AS [] n c r) sy i k.
Proof. unfold hasA, defs. cbn. destruct sy; intros (x & l & [] & _). Qed.
Lemma okSA_nil W f r : okSA W f (AS [] None None r).
Proof.
  split; cbn; auto.
  - intros sy. unfold defs. cbn. destruct sy; apply okd_empty.
  - intros sy i n H. destruct (hasA_nil _ _ _ _ _ _ H).
Qed.
Lemma arm_unreachable W B rb f : arm W B rb f unreachableState [].
Proof.
  split; try easy; try apply okSA_nil; cbn; auto.
Qed.
Lemma arm_same W B rb f a T T' : (forall t, In t T <-> In t T') -> arm W B rb f a T -> arm W B rb f a T'.
Proof.
  intros H [S D L R].
  assert (N : T <> [] <-> T' <> []).
  { split; intros Q E; subst; [destruct T as [|t T]|destruct T' as [|t T']]; try congruence;
      destruct (proj1 (H t)); cbn; auto; destruct (proj2 (H t)); cbn; auto. }
  split; auto; [intros E; rewrite (L E); exact N|].
  intros E NT sy i l. rewrite (R E (proj2 N NT)). split; intros (t & I & Q); exists t; split; auto; now apply H.
Qed.
Lemma arm_seq W B rb f a T1 f' a' T : arm W B rb f a T1 ->
  arm W (drv f a) (areach a) f' a' T -> arm W B rb f' a' (cat T1 T).
Proof.
  intros [S D L R] [S' D' L' R']. split; auto.
  - intros E. rewrite cat_ne. specialize (L E). destruct (areach a).
    + rewrite (L' eq_refl). tauto.
    + split; [|intros [Q _]; apply L in Q; discriminate].
      intros Q. rewrite (D' eq_refl) in Q. discriminate.
  - intros E N sy i l. apply cat_ne in N. destruct N as [N1 N2]. specialize (R E N1).
    rewrite (some_cat B (drv f a)); [|intros; apply R|exact N1]. apply R'; [|exact N2].
    now apply (proj2 (L E)).
Qed.

(** * Merging states *)
Lemma merge_entries_ok W sy d : aligned_writes W -> okd W sy d -> forall its a,
  (forall x, In x its -> In x (ivs d)) -> okA W a ->
  exists a', merge_entries a sy d its = DOk a' /\ okA W a' /\
    anode a' = anode a /\ acond a' = acond a /\ areach a' = areach a /\
    forall sy' i n, hasA a' sy' i n <-> hasA a sy' i n \/
      (sy' = sy /\ exists x l, In x its /\ inside x i /\ get (lists d) (ival x) = Some l /\ In n l).
Proof.
  intros A Od. induction its as [|x its IH]; intros a Hi O; cbn [merge_entries].
  - exists a. split; [reflexivity|]. split; [exact O|]. do 3 (split; [reflexivity|]).
    intros sy' i n. split; [auto|]. intros [H|(_ & x & l & [] & _)]. exact H.
  - assert (Ix : In x (ivs d)) by (apply Hi; now left).
    destruct (allvalid_some d x (proj1 (ok_uns _ _ _ Od)) Ix) as (l0 & G).
    unfold getDriverList. rewrite G. cbn [dbind].
    pose proof (proj1 (proj1 (ok_dok _ _ _ Od)) x Ix) as Nx.
    destruct (track_ok W a sy (Range (ilo x) (ihi x)) l0 true A O) as (a1 & E & O1 & Q1 & Q2 & Q3 & H1).
    { rewrite lower_range, upper_range by exact Nx. apply (ok_in _ _ _ Od x Ix). }
    { intros ->. exact (ok_ne _ _ _ Od x Ix G). }
    rewrite E. cbn [dbind].
    destruct (IH a1) as (a' & E' & O' & R1 & R2 & R3 & H'); [intros y I; apply Hi; now right|exact O1|].
    exists a'. split; [exact E'|]. split; [exact O'|]. do 3 (split; [congruence|]).
    intros sy' i n. rewrite H', H1.
    assert (Bx : bit (Range (ilo x) (ihi x)) i <-> inside x i).
    { rewrite bit_lu, lower_range, upper_range by exact Nx. reflexivity. }
    rewrite Bx. split.
    + intros [[(-> & C & [I|[_ Q]])|[_ Q]]|(-> & y & l & I & R)]; auto.
      * right. split; [reflexivity|]. exists x, l0. cbn. auto.
      * right. split; [reflexivity|]. exists y, l. cbn. auto.
    + intros [Q|(-> & y & l & [<-|I] & C & Gy & Il)].
      * left. assert (Dec : (sy' = sy /\ inside x i) \/ ~ (sy' = sy /\ inside x i)).
        { unfold inside. destruct (Nat.eq_dec sy' sy), (Z_le_dec (ilo x) i), (Z_le_dec i (ihi x)); tauto. }
        destruct Dec as [[-> C]|Nd]; [left; auto|right; auto].
      * left. left. split; [reflexivity|]. split; [exact C|]. left. congruence.
      * right. split; [reflexivity|]. exists y, l. auto.
Qed.

Lemma merge_defs_ok W : aligned_writes W -> forall ds k a,
  (forall j d, nth_error ds j = Some d -> okd W (k + j) d) -> okA W a ->
  exists a', merge_defs a k ds = DOk a' /\ okA W a' /\
    anode a' = anode a /\ acond a' = acond a /\ areach a' = areach a /\
    forall sy i n, hasA a' sy i n <-> hasA a sy i n \/
      (exists j, sy = (k + j)%nat /\ has (nth j ds dm_empty) i n).
Proof.
  intros A. induction ds as [|d ds IH]; intros k a Hd O; cbn [merge_defs].
  - exists a. split; [reflexivity|]. split; [exact O|]. do 3 (split; [reflexivity|]).
    intros sy i n. split; [auto|]. intros [H|(j & _ & H)]; [exact H|].
    exfalso. destruct j; destruct H as (x & l & [] & _).
  - assert (Od : okd W k d). { replace k with (k + 0)%nat by lia. now apply Hd. }
    destruct (merge_entries_ok W k d A Od (ivs d) a) as (a1 & E & O1 & Q1 & Q2 & Q3 & H1); auto.
    rewrite E. cbn [dbind].
    destruct (IH (S k) a1) as (a' & E' & O' & R1 & R2 & R3 & H').
    { intros j d' Ej. replace (S k + j)%nat with (k + S j)%nat by lia. now apply Hd. }
    { exact O1. }
    exists a'. split; [exact E'|]. split; [exact O'|]. do 3 (split; [congruence|]).
    intros sy i n. rewrite H', H1. split.
    + intros [[Q|(-> & Q)]|(j & -> & Q)]; auto.
      * right. exists 0%nat. split; [lia|]. exact Q.
      * right. exists (S j). split; [lia|]. exact Q.
    + intros [Q|([|j] & -> & Q)]; [auto| |].
      * left. right. split; [lia|]. exact Q.
      * right. exists j. split; [lia|]. exact Q.
Qed.

(** mergeNodes adds at most a node and plain edges. *)
Definition plain (ds : list dep) : Prop := forall e, In e ds -> exists a b, e = DPlain a b.

Lemma okF_create f k : okF f ->
  okF (FX (S (fnext f)) (fnodes f ++ [(fnext f, k)]) (fdeps f) (fpend f) (flv f)).
Proof.
  intros [L U]. split; cbn [fnodes fnext].
  - intros n k' I. apply in_app_or in I. destruct I as [I|[[= <- <-]|[]]]; [|lia].
    specialize (L n k' I). lia.
  - intros n k1 k2 I J. apply in_app_or in I. apply in_app_or in J.
    destruct I as [I|[[= <- <-]|[]]], J as [J|[Ej|[]]].
    + eauto.
    + injection Ej as <- <-. specialize (L _ _ I). lia.
    + specialize (L _ _ J). lia.
    + now injection Ej.
Qed.
Lemma create_grow s k : okF (fxs s) -> forall s' n, create s k = (s', n) ->
  n = fnext (fxs s) /\ cur s' = cur s /\ okF (fxs s') /\ grow (fxs s) (fxs s') [] [] [] /\
  (n < fnext (fxs s'))%nat /\ In (n, k) (fnodes (fxs s')).
Proof.
  intros O s' n E. injection E as <- <-. cbn. split; [reflexivity|]. split; [reflexivity|].
  split; [now apply okF_create|]. split; [|split; [lia|apply in_or_app; right; now left]].
  unfold grow. cbn. rewrite !app_nil_r. repeat split; try constructor; try lia.
  exists [(fnext (fxs s), k)]. split; [reflexivity|]. intros m k' [[= <- <-]|[]]. lia.
Qed.
Lemma emit_grow s ds : Forall (dlt (fnext (fxs s))) ds ->
  cur (emit s ds) = cur s /\ (okF (fxs s) -> okF (fxs (emit s ds))) /\
  grow (fxs s) (fxs (emit s ds)) ds [] [].
Proof.
  intros H. split; [reflexivity|]. split; [auto|]. unfold grow. cbn. rewrite !app_nil_r.
  repeat split; try constructor; auto. exists []. rewrite app_nil_r. split; [reflexivity|easy].
Qed.

Lemma mergeNodes_ok s x y : okF (fxs s) -> olt (fnext (fxs s)) x -> olt (fnext (fxs s)) y ->
  exists s' z ds, mergeNodes s x y = (s', z) /\ cur s' = cur s /\ okF (fxs s') /\
    grow (fxs s) (fxs s') ds [] [] /\ plain ds /\ olt (fnext (fxs s')) z.
Proof.
  intros O X Y. unfold mergeNodes.
  assert (Triv : forall z, olt (fnext (fxs s)) z -> exists s' z' ds, (s, z) = (s', z') /\ cur s' = cur s /\
      okF (fxs s') /\ grow (fxs s) (fxs s') ds [] [] /\ plain ds /\ olt (fnext (fxs s')) z').
  { intros z Z. exists s, z, []. split; [reflexivity|]. split; [reflexivity|]. split; [exact O|].
    split; [apply grow_refl|]. split; [easy|exact Z]. }
  destruct x as [p|], y as [q|]; try (apply Triv; assumption).
  destruct (Nat.eqb p q) eqn:E; [apply Triv; exact I|].
  unfold b_merge. rewrite E. destruct (create s KMerge) as [s1 m] eqn:C.
  destruct (create_grow s KMerge O s1 m C) as (Em & Cu & O1 & G1 & Lm & _).
  pose proof (proj1 (grow_ext _ _ _ _ _ G1)) as L. cbn in X, Y.
  destruct (emit_grow s1 [DPlain p m; DPlain q m]) as (Cu2 & O2 & G2).
  { repeat constructor; cbn; lia. }
  eexists _, _, [DPlain p m; DPlain q m]. split; [reflexivity|]. split; [congruence|].
  split; [auto|]. split; [exact (grow_trans _ _ _ _ _ _ _ _ _ G1 G2)|].
  split; [|cbn; exact Lm]. intros e [<-|[<-|[]]]; eauto.
Qed.

Lemma joinState_ok W B rb s other T1 T2 : aligned_writes W -> okF (fxs s) ->
  arm W B rb (fxs s) (cur s) T1 -> arm W B rb (fxs s) other T2 ->
  exists s' ds, joinState s other = DOk s' /\ okF (fxs s') /\ grow (fxs s) (fxs s') ds [] [] /\ plain ds /\
    arm W B rb (fxs s') (cur s') (T1 ++ T2).
Proof.
  intros A O M1 M2. unfold joinState.
  assert (Ne : T1 ++ T2 <> [] <-> T1 <> [] \/ T2 <> []).
  { destruct T1; cbn; [split; [auto|intros [|]; congruence]|]. split; [left|]; discriminate. }
  destruct (Bool.eqb (areach (cur s)) (areach other)) eqn:Er.
  - apply Bool.eqb_prop in Er. unfold mergeStates.
    destruct (merge_defs_ok W A (adefs other) 0 (cur s)) as (a & E & Oa & Q1 & Q2 & Q3 & H).
    { intros j d Ej. rewrite <- (defs_some _ _ _ Ej). apply (sa_ok _ _ _ (arm_ok _ _ _ _ _ _ M2)). }
    { apply (sa_ok _ _ _ (arm_ok _ _ _ _ _ _ M1)). }
    rewrite E. cbn [dbind].
    destruct (mergeNodes_ok (with_cur s a) (anode a) (anode other) O) as (s1 & n & d1 & E1 & C1 & O1 & G1 & P1 & Ln).
    { rewrite Q1. apply (sa_node _ _ _ (arm_ok _ _ _ _ _ _ M1)). }
    { apply (sa_node _ _ _ (arm_ok _ _ _ _ _ _ M2)). }
    rewrite E1. cbn [with_cur fxs] in *.
    destruct (mergeNodes_ok s1 (acond a) (acond other) O1) as (s2 & c & d2 & E2 & C2 & O2 & G2 & P2 & Lc).
    { rewrite Q2. apply (olt_ext (fxs s)); [eapply grow_ext; eauto|]. apply (sa_cond _ _ _ (arm_ok _ _ _ _ _ _ M1)). }
    { apply (olt_ext (fxs s)); [eapply grow_ext; eauto|]. apply (sa_cond _ _ _ (arm_ok _ _ _ _ _ _ M2)). }
    rewrite E2. pose proof (grow_trans _ _ _ _ _ _ _ _ _ G1 G2) as G.
    assert (Ha : forall n c r sy i k, hasA (AS (adefs a) n c r) sy i k <-> hasA (cur s) sy i k \/ hasA other sy i k).
    { intros n0 c0 r0 sy i k.
      change (hasA (AS (adefs a) n0 c0 r0) sy i k) with (hasA a sy i k). rewrite H. unfold hasA at 3, defs.
      split; (intros [Q|Q]; [now left|right]).
      - destruct Q as (j & -> & Q). exact Q.
      - exists sy. split; [lia|exact Q]. }
    eexists _, (d1 ++ d2). split; [reflexivity|]. cbn [with_cur fxs cur].
    split; [exact O2|]. split; [exact G|]. split.
    { intros e I. apply in_app_or in I. destruct I; auto. }
    assert (X : ext (fxs s) (fxs s2)) by (eapply grow_ext; eauto).
    pose proof (okSA_ext W _ _ _ X (arm_ok _ _ _ _ _ _ M1)) as S1.
    pose proof (okSA_ext W _ _ _ X (arm_ok _ _ _ _ _ _ M2)) as S2.
    split; cbn [areach].
    + split.
      * exact Oa.
      * intros sy i k Q. apply Ha in Q. destruct Q as [Q|Q]; [apply (sa_known _ _ _ S1 sy i k Q)|apply (sa_known _ _ _ S2 sy i k Q)].
      * cbn [anode]. apply (olt_ext (fxs s1)); [eapply grow_ext; eauto|exact Ln].
      * cbn [acond]. exact Lc.
    + intros R. rewrite Q3. apply (arm_dead _ _ _ _ _ _ M1 R).
    + intros R. rewrite Q3, Ne, <- (arm_live _ _ _ _ _ _ M1 R), <- (arm_live _ _ _ _ _ _ M2 R), Er. tauto.
    + intros R NT sy i l.
      assert (Nb : T1 <> [] /\ T2 <> []).
      { rewrite <- (arm_live _ _ _ _ _ _ M1 R), <- (arm_live _ _ _ _ _ _ M2 R), Er.
        apply Ne in NT. rewrite <- (arm_live _ _ _ _ _ _ M1 R), <- (arm_live _ _ _ _ _ _ M2 R), Er in NT. tauto. }
      assert (D : drv (fxs s2) (AS (adefs a) n c (areach a)) sy i l <->
                  drv (fxs s) (cur s) sy i l \/ drv (fxs s) other sy i l).
      { rewrite (drv_ext _ _ (cur s) sy i l O X (sa_known _ _ _ (arm_ok _ _ _ _ _ _ M1))).
        rewrite (drv_ext _ _ other sy i l O X (sa_known _ _ _ (arm_ok _ _ _ _ _ _ M2))). split.
        - intros (k & Q & I). apply Ha in Q. destruct Q as [Q|Q]; [left|right]; exists k; auto.
        - intros [(k & Q & I)|(k & Q & I)]; exists k; (split; [apply Ha; auto|exact I]). }
      rewrite D, (arm_drv _ _ _ _ _ _ M1 R (proj1 Nb)), (arm_drv _ _ _ _ _ _ M2 R (proj2 Nb)).
      split.
      * intros [(t & I & Q)|(t & I & Q)]; exists t; (split; [apply in_or_app; auto|exact Q]).
      * intros (t & I & Q). apply in_app_or in I. destruct I as [I|I]; [left|right]; exists t; auto.
  - destruct (areach (cur s)) eqn:R1; cbn [negb].
    + assert (R2 : areach other = false) by (destruct (areach other); [discriminate|reflexivity]).
      eexists _, []. split; [reflexivity|]. split; [exact O|]. split; [apply grow_refl|]. split; [easy|].
      destruct M1 as [S D L R]. split; auto.
      * intros E. rewrite R1, Ne. split; [|reflexivity]. intros _. left. apply (L E). exact R1.
      * intros E NT. destruct T2 as [|t T2]; [rewrite app_nil_r in *; auto|].
        assert (Q : areach other = true) by (apply (arm_live _ _ _ _ _ _ M2 E); discriminate). congruence.
    + assert (R2 : areach other = true) by (destruct (areach other); [reflexivity|discriminate]).
      eexists _, []. split; [reflexivity|]. split; [exact O|]. split; [apply grow_refl|]. split; [easy|].
      destruct M2 as [S D L R]. cbn [with_cur cur fxs]. split; auto.
      * intros E. rewrite R2, Ne. split; [|reflexivity]. intros _. right. apply (L E). exact R2.
      * intros E NT. destruct T1 as [|t T1]; [cbn [app] in *; auto|].
        assert (Q : areach (cur s) = true) by (apply (arm_live _ _ _ _ _ _ M1 E); discriminate). congruence.
Qed.
