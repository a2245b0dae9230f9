(** Proofs about expression walks. *)
From Verif Require Import Base M_Graph M_Range M_Netlist M_Annot M_Interval M_Heap M_Drivers M_Pending
  M_DFA S_Interval S_Drivers S_DFA P_Interval P_Heap P_Drivers P_DriversX P_DFA P_DFA2 P_DFA3 P_DFA4 P_DFA5 P_DFA6
  M_Expr S_Expr.
Local Open Scope Z_scope.

(** * Joining a state with itself leaves the definitions alone *)
Lemma dunion_same : forall new old, (forall n, In n new -> In n old) -> dunion old new = old.
Proof.
  unfold dunion. induction new as [|n new IH]; intros old H; cbn [fold_left]; [reflexivity|].
  assert (E : existsb (Nat.eqb n) old = true).
  { apply existsb_exists. exists n. split; [apply H; now left|apply Nat.eqb_refl]. }
  rewrite E. apply IH. intros k I. apply H. now right.
Qed.
Lemma set_nth_same {A} : forall (l : list A) n x, nth_error l n = Some x -> set_nth l n x = l.
Proof.
  induction l as [|y l IH]; intros [|n] x; cbn; try easy; [congruence|]. intros E. now rewrite IH.
Qed.
Lemma put_same {T} (m : mgr T) h x : get m h = Some x -> put m h x = Some m.
Proof.
  intros G. unfold put. rewrite G. unfold get in G. destruct (nth_error (slots m) h) as [[y|]|] eqn:E; try easy.
  injection G as ->. rewrite (set_nth_same _ _ _ E). now destruct m.
Qed.

Lemma addDrivers_same d x l : dok d -> In x (ivs d) -> get (lists d) (ival x) = Some l ->
  addDrivers d (Range (ilo x) (ihi x)) l true = DOk d.
Proof.
  intros [Wf _] I G. assert (L : ilo x <= ihi x) by (destruct Wf as [N _]; exact (N x I)).
  unfold addDrivers. rewrite lower_range, upper_range, dm_find_range by exact L.
  destruct (ivfind (ilo x) (ihi x) (ivs d)) as [|y r] eqn:F.
  { assert (J : In x (ivfind (ilo x) (ihi x) (ivs d))) by (apply in_ivfind; split; [exact I|lia]).
    rewrite F in J. easy. }
  assert (Ey : y = x).
  { assert (J : In y (ivfind (ilo x) (ihi x) (ivs d))) by (rewrite F; now left).
    apply in_ivfind in J. destruct J as (J & O1 & O2).
    assert (Ly : ilo y <= ihi y) by (destruct Wf as [N _]; exact (N y J)).
    apply (wf_two (ivs d) y x (Z.max (ilo x) (ilo y))); auto; unfold inside; lia. }
  subst y. cbn [add_loop Nat.add]. unfold body. unfold range_eqb. cbn [rleft rright].
  rewrite !Z.eqb_refl. cbn [andb]. unfold getDriverList. rewrite G. cbn [dbind].
  rewrite dunion_same by auto. unfold setDriverList. rewrite put_same by exact G. cbn [dbind]. now destruct d.
Qed.

Lemma put_defs_same : forall l i d, nth_error l i = Some d -> put_defs l i d = l.
Proof.
  induction l as [|y l IH]; intros [|i] d; cbn; try easy; [congruence|]. intros E. now rewrite IH.
Qed.

Lemma merge_entries_same a sy d : nth_error (adefs a) sy = Some d -> dok d -> allvalid d ->
  forall its, (forall x, In x its -> In x (ivs d)) -> merge_entries a sy d its = DOk a.
Proof.
  intros E K V. induction its as [|x its IH]; intros H; cbn [merge_entries]; [reflexivity|].
  destruct (allvalid_some d x V (H x (or_introl eq_refl))) as (l & G).
  unfold getDriverList. rewrite G. cbn [dbind]. unfold trackDrivers. rewrite (defs_some _ _ _ E).
  rewrite (addDrivers_same d x l K (H x (or_introl eq_refl)) G). cbn [dbind]. rewrite (put_defs_same _ _ _ E).
  destruct a as [d0 n0 c0 r0]. cbn [adefs anode acond areach] in *. apply IH. intros y I. apply H. now right.
Qed.
Lemma merge_defs_same : forall ds k a, (forall j d, nth_error ds j = Some d -> nth_error (adefs a) (k + j)%nat = Some d) ->
  (forall d, In d ds -> dok d /\ allvalid d) -> merge_defs a k ds = DOk a.
Proof.
  induction ds as [|d ds IH]; intros k a H O; cbn [merge_defs]; [reflexivity|].
  destruct (O d (or_introl eq_refl)) as [K V]. rewrite (merge_entries_same a k d); auto.
  - cbn [dbind]. apply IH; [|intros x I; apply O; now right]. intros j x E. specialize (H (S j) x E).
    now rewrite Nat.add_succ_r in H.
  - specialize (H 0%nat d eq_refl). now rewrite Nat.add_0_r in H.
Qed.

(** * Parity *)
Definition par {A} (l : list A) : bool := Nat.odd (length l).
Lemma par_app {A} (l r : list A) : par (l ++ r) = xorb (par l) (par r).
Proof. unfold par. rewrite app_length. apply Nat.odd_add. Qed.
Lemma par_cat P Q : par (ecat P Q) = par P && par Q.
Proof.
  unfold par. replace (length (ecat P Q)) with (length P * length Q)%nat; [apply Nat.odd_mul|].
  induction P as [|t P IH]; [reflexivity|]. cbn [ecat flat_map]. rewrite app_length, map_length. cbn [length Nat.mul].
  fold (ecat P Q). now rewrite IH.
Qed.

Section Walk.
Variable nm : nat -> str.
Variable automatic : nat -> bool.
Variable external : option nat.
Variable sc ns : bool.
Variable D : list dmap.
Variable m : nat.
Variable oc : option nat.
Hypothesis HD : forall sy, dok (nth sy D dm_empty) /\ allvalid (nth sy D dm_empty).

(** The state at a point reached by an odd ([true]) or even number of paths. *)
Definition at_ (x : bool) : astate := AS D (if x then Some m else None) (if x then oc else None) true.

Lemma join_at x y f : joinState (ST (at_ x) f) (at_ y) = DOk (ST (at_ (xorb x y)) f).
Proof.
  unfold joinState, at_. cbn [cur areach Bool.eqb]. unfold mergeStates. cbn [cur adefs].
  rewrite merge_defs_same.
  - cbn [dbind with_cur cur fxs anode acond adefs areach]. destruct x, y, oc as [c|]; cbn; rewrite ?Nat.eqb_refl; reflexivity.
  - intros j d E. exact E.
  - intros d I. apply In_nth with (d := dm_empty) in I. destruct I as (i & _ & <-). apply HD.
Qed.

(** What one reference adds. *)
Definition one_ref (x : bool) (r : ref) (ds : list dep) (ps : list pend) : Prop :=
  if automatic (fst r) then ds = [] /\ ps = []
  else if x then rds nm (fun sy => nth sy D dm_empty) m [r] ds ps
  else ds = [] /\ ps = [Pend (fst r) (nm (fst r)) (snd r) external EKNone].
Inductive eff (x : bool) : list (list epath * ref) -> list dep -> list pend -> Prop :=
| eff_nil : eff x [] [] []
| eff_cons P r l d p ds ps : one_ref (x && par P) r d p -> eff x l ds ps ->
    eff x ((P, r) :: l) (d ++ ds) (p ++ ps).
Lemma eff_app x : forall l1 l2 d1 p1 d2 p2, eff x l1 d1 p1 -> eff x l2 d2 p2 -> eff x (l1 ++ l2) (d1 ++ d2) (p1 ++ p2).
Proof.
  intros l1 l2 d1 p1 d2 p2 H H2. induction H; [exact H2|]. cbn [app]. rewrite <- !app_assoc. now constructor.
Qed.
Lemma eff_after x P : forall l ds ps, eff (x && par P) l ds ps -> eff x (map (eafter P) l) ds ps.
Proof.
  intros l ds ps H. induction H; cbn [map]; [constructor|]. constructor; [|assumption].
  now rewrite par_cat, andb_assoc.
Qed.

Definition added (f : fx) (ds : list dep) (ps : list pend) : fx :=
  FX (fnext f) (fnodes f) (fdeps f ++ ds) (fpend f ++ ps) (flv f).
Lemma added_nil f : added f [] [] = f.
Proof. destruct f. unfold added. cbn. now rewrite !app_nil_r. Qed.
Lemma added_added f d p d' p' : added (added f d p) d' p' = added f (d ++ d') (p ++ p').
Proof. unfold added. cbn. now rewrite !app_assoc. Qed.

Lemma note_at x f r : exists ds ps, noteReference nm automatic external None (ST (at_ x) f) r = DOk (ST (at_ x) (added f ds ps)) /\
  one_ref x r ds ps.
Proof.
  unfold noteReference, one_ref. cbn [cur areach at_ negb]. destruct (automatic (fst r)).
  { exists [], []. rewrite added_nil. auto. }
  destruct x.
  - destruct r as [sy b]. cbn [fst snd]. destruct (HD sy) as [K V].
    destruct (handleRvalue_node nm external (ST (at_ true) f) sy b m eq_refl K V) as (s' & ds & ps & E & [R1 R2] & S).
    exists ds, ps. split; [|exact S]. rewrite E. f_equal. destruct s' as [a g]. cbn [cur fxs] in *. now subst.
  - exists [], [Pend (fst r) (nm (fst r)) (snd r) external EKNone]. split; [|auto].
    unfold handleRvalue. cbn [cur at_ adefs anode orElse]. unfold addRvalue, queue, added. cbn [cur fxs].
    rewrite app_nil_r. now destruct (nth_error D (fst r)).
Qed.

(** The result of a walk that started on [x]. *)
Definition ends (x : bool) (e : vx) (r : walked) (f : fx) : Prop :=
  fxs (fst r) = f /\
  match snd r with
  | None => cur (fst r) = at_ (x && par (epaths sc ns None e)) /\
            forall b, par (epaths sc ns (Some b) e) = par (epaths sc ns None e)
  | Some a => cur (fst r) = at_ (x && par (epaths sc ns (Some true) e)) /\ a = at_ (x && par (epaths sc ns (Some false) e)) /\
              par (epaths sc ns None e) = xorb (par (epaths sc ns (Some true) e)) (par (epaths sc ns (Some false) e))
  end.
Lemma ends_unsplit x e r f : ends x e r f -> unsplit r = DOk (ST (at_ (x && par (epaths sc ns None e))) f).
Proof.
  destruct r as [[c g] [a|]]; unfold ends, unsplit; cbn [fst snd cur fxs].
  - intros (<- & -> & -> & E). rewrite join_at, E. do 3 f_equal. now destruct x.
  - now intros (<- & -> & _).
Qed.
Lemma ends_outcomes x e r f : ends x e r f ->
  outcomes r = (ST (at_ (x && par (epaths sc ns (Some true) e))) f, at_ (x && par (epaths sc ns (Some false) e))).
Proof.
  destruct r as [[c g] [a|]]; unfold ends, outcomes; cbn [fst snd cur fxs].
  - now intros (<- & -> & -> & _).
  - intros (<- & -> & E). now rewrite !E.
Qed.

Notation visit := (visit nm automatic external sc ns).
Notation epaths := (epaths sc ns).
Notation occ := (occ sc ns).
Definition walks (e : vx) : Prop := forall x f, exists r ds ps, visit (ST (at_ x) f) e = DOk r /\
  ends x e r (added f ds ps) /\ eff x (occ e) ds ps.

Lemma walks_seq a b : walks a -> walks b -> forall x f, exists s1 ds ps,
  (do r <- visit (ST (at_ x) f) a; do s1 <- unsplit r; do q <- visit s1 b; do s2 <- unsplit q; DOk (s2, @None astate))
    = DOk (s1, None) /\ s1 = ST (at_ (x && par (ecat (epaths None a) (epaths None b)))) (added f ds ps) /\
  eff x (occ a ++ map (eafter (epaths None a)) (occ b)) ds ps.
Proof.
  intros Ha Hb x f. destruct (Ha x f) as (r & ds & ps & E & En & F). rewrite E. cbn [dbind].
  rewrite (ends_unsplit _ _ _ _ En). cbn [dbind].
  destruct (Hb (x && par (epaths None a)) (added f ds ps)) as (q & ds2 & ps2 & E2 & En2 & F2). rewrite E2. cbn [dbind].
  rewrite (ends_unsplit _ _ _ _ En2). cbn [dbind].
  eexists _, (ds ++ ds2), (ps ++ ps2). split; [reflexivity|]. split.
  - rewrite added_added. do 2 f_equal. rewrite par_cat. now destruct x, (par (epaths None a)).
  - apply eff_app; [exact F|]. now apply eff_after.
Qed.

Lemma pick {A} (b : bool) (u v : A) : b = true -> (if b then u else v) = u.
Proof. now intros ->. Qed.
Lemma pick' {A} (b : bool) (u v : A) : b = false -> (if b then u else v) = v.
Proof. now intros ->. Qed.

Lemma walk_spec e : walks e.
Proof.
  induction e as [|r|a IHa b IHb|a IHa|a IHa b IHb|a IHa b IHb|c IHc a IHa b IHb]; intros x f; cbn [M_Expr.visit S_Expr.occ].
  - exists (ST (at_ x) f, None), [], []. split; [reflexivity|]. split; [|constructor].
    unfold ends. cbn. rewrite added_nil, andb_true_r. auto.
  - destruct (note_at x f r) as (ds & ps & E & O). rewrite E. cbn [dbind]. eexists _, ds, ps. split; [reflexivity|].
    split; [unfold ends; cbn; rewrite andb_true_r; auto|].
    rewrite <- (app_nil_r ds), <- (app_nil_r ps). constructor; [|constructor]. cbn. now rewrite andb_true_r.
  - destruct (walks_seq a b IHa IHb x f) as (s1 & ds & ps & E & -> & F). rewrite E.
    eexists _, ds, ps. split; [reflexivity|]. split; [unfold ends; cbn; auto|exact F].
  - destruct (IHa x f) as (r & ds & ps & E & En & F). rewrite E. cbn [dbind].
    assert (Ns : {ns = true} + {ns = false}) by (destruct ns; auto). destruct Ns as [Ns|Ns].
    + rewrite (pick ns) by exact Ns. rewrite (ends_outcomes _ _ _ _ En). eexists _, ds, ps. split; [reflexivity|]. split; [|exact F].
      unfold ends. cbn [fst snd with_cur fxs cur S_Expr.epaths]. rewrite !(pick ns) by exact Ns. cbn [negb].
      split; [reflexivity|]. split; [reflexivity|]. split; [reflexivity|]. apply par_app.
    + rewrite (pick' ns) by exact Ns. rewrite (ends_unsplit _ _ _ _ En). cbn [dbind]. eexists _, ds, ps. split; [reflexivity|]. split; [|exact F].
      unfold ends. cbn [fst snd with_cur fxs cur S_Expr.epaths]. rewrite !(pick' ns) by exact Ns.
      split; [reflexivity|]. split; [reflexivity|]. intros b. now rewrite (pick' ns).
  - assert (Sc : {sc = true} + {sc = false}) by (destruct sc; auto). destruct Sc as [Sc|Sc].
    + destruct (IHa x f) as (r & ds & ps & E & En & F). rewrite E. cbn [dbind].
      rewrite !(pick sc) by exact Sc. rewrite (ends_outcomes _ _ _ _ En).
      destruct (IHb (x && par (epaths (Some true) a)) (added f ds ps)) as (q & ds2 & ps2 & E2 & En2 & F2).
      rewrite E2. cbn [dbind].
      rewrite (ends_outcomes _ _ _ _ En2). unfold with_cur; cbn [cur fxs]. rewrite join_at. cbn [dbind cur fxs].
      eexists _, (ds ++ ds2), (ps ++ ps2). split; [reflexivity|]. split.
      * unfold ends. cbn [fst snd with_cur fxs cur S_Expr.epaths]. rewrite !(pick sc), added_added by exact Sc.
        split; [reflexivity|]. rewrite !par_app, !par_cat. change (par []) with false. rewrite !xorb_false_r.
        destruct x, (par (epaths (Some true) a)), (par (epaths (Some false) a)), (par (epaths (Some true) b)), (par (epaths (Some false) b)); auto.
      * apply eff_app; [exact F|]. now apply eff_after.
    + rewrite !(pick' sc) by exact Sc.
      destruct (walks_seq a b IHa IHb x f) as (s1 & ds & ps & E & -> & F).
      destruct (visit (ST (at_ x) f) a) as [r|]; [|discriminate]. cbn [dbind] in *. rewrite (pick' sc), E by exact Sc.
      eexists _, ds, ps. split; [reflexivity|]. split; [|exact F].
      unfold ends. cbn [fst snd cur fxs S_Expr.epaths]. rewrite (pick' sc) by exact Sc.
      split; [reflexivity|]. split; [reflexivity|]. intros v. now rewrite (pick' sc).
  - assert (Sc : {sc = true} + {sc = false}) by (destruct sc; auto). destruct Sc as [Sc|Sc].
    + destruct (IHa x f) as (r & ds & ps & E & En & F). rewrite E. cbn [dbind].
      rewrite !(pick sc) by exact Sc. rewrite (ends_outcomes _ _ _ _ En). unfold with_cur; cbn [fxs cur].
      destruct (IHb (x && par (epaths (Some false) a)) (added f ds ps)) as (q & ds2 & ps2 & E2 & En2 & F2).
      rewrite E2. cbn [dbind].
      rewrite (ends_outcomes _ _ _ _ En2). unfold with_cur; cbn [cur fxs]. rewrite join_at. cbn [dbind cur fxs].
      eexists _, (ds ++ ds2), (ps ++ ps2). split; [reflexivity|]. split.
      * unfold ends. cbn [fst snd with_cur fxs cur S_Expr.epaths]. rewrite !(pick sc), added_added by exact Sc.
        split; [reflexivity|]. rewrite !par_app, !par_cat. change (par []) with false. rewrite !xorb_false_r.
        destruct x, (par (epaths (Some true) a)), (par (epaths (Some false) a)), (par (epaths (Some true) b)), (par (epaths (Some false) b)); auto.
      * apply eff_app; [exact F|]. now apply eff_after.
    + rewrite !(pick' sc) by exact Sc.
      destruct (walks_seq a b IHa IHb x f) as (s1 & ds & ps & E & -> & F).
      destruct (visit (ST (at_ x) f) a) as [r|]; [|discriminate]. cbn [dbind] in *. rewrite (pick' sc), E by exact Sc.
      eexists _, ds, ps. split; [reflexivity|]. split; [|exact F].
      unfold ends. cbn [fst snd cur fxs S_Expr.epaths]. rewrite (pick' sc) by exact Sc.
      split; [reflexivity|]. split; [reflexivity|]. intros v. now rewrite (pick' sc).
  - destruct (IHc x f) as (r & ds & ps & E & En & F). rewrite E. cbn [dbind]. rewrite (ends_outcomes _ _ _ _ En).
    destruct (IHa (x && par (epaths (Some true) c)) (added f ds ps)) as (q & ds2 & ps2 & E2 & En2 & F2). rewrite E2. cbn [dbind].
    rewrite (ends_unsplit _ _ _ _ En2). unfold with_cur; cbn [dbind fxs cur].
    destruct (IHb (x && par (epaths (Some false) c)) (added (added f ds ps) ds2 ps2)) as (q2 & ds3 & ps3 & E3 & En3 & F3).
    rewrite E3. cbn [dbind]. rewrite (ends_unsplit _ _ _ _ En3). unfold with_cur; cbn [dbind fxs cur]. rewrite join_at. cbn [dbind].
    eexists _, (ds ++ ds2 ++ ds3), (ps ++ ps2 ++ ps3). split; [reflexivity|]. split.
    + unfold ends. cbn [fst snd cur fxs S_Expr.epaths]. rewrite !added_added, ?app_assoc. split; [reflexivity|]. split; [|auto].
      f_equal. rewrite par_app, !par_cat.
      destruct x, (par (epaths (Some true) c)), (par (epaths (Some false) c)), (par (epaths None a)), (par (epaths None b)); auto.
    + apply eff_app; [exact F|]. apply eff_app; apply eff_after; assumption.
Qed.
End Walk.
