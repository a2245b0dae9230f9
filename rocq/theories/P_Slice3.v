(** Bit slicing: exact boundaries under hints, common refinement, flow of an assignment. *)
From Coq Require Import Sorted.
From Verif Require Import Base M_Slice S_Slice P_Slice P_Slice2.

Section P3.
Variable V : Type.
Variable vz : V.
Notation expr := (expr V).
Notation slice := (slice V).

Lemma folded_none (fold : option (list V)) w : folded fold w = None <-> ~ is_const fold w.
Proof.
  unfold folded, is_const. destruct fold as [v|].
  - destruct (Nat.eqb_spec (length v) w) as [E|E]; split; intros H; try discriminate; auto.
    + exfalso. apply H. eauto.
    + intros (v' & Q & L). inversion Q; subst. auto.
  - split; auto. intros _ (v & Q & _). discriminate.
Qed.

Lemma bset_hcut h : sorted_hints h -> forall e : expr, typed nodyn e -> forall k,
  bset V h e k <-> bset V no_hints e k \/ hcut h e k.
Proof.
  intros Sh. apply (expr_rect' V (fun e => typed nodyn e -> forall k,
    bset V h e k <-> bset V no_hints e k \/ hcut h e k)).
  - intros p w (A & -> & R) k. split.
    + intros B. inversion B; subst; [left; now constructor|]. right.
      match goal with I : In _ (splits h p) |- _ => apply (splits_spec h p Sh) in I;
        destruct I as (L & s & l & Rs & Hs & I) end.
      eapply HLsp; eauto. lia.
    + intros [B|B].
      * inversion B; subst; [now constructor|]. rewrite splits_none in *. contradiction.
      * inversion B; subst. apply BLspCut; [lia|]. apply (splits_spec h p Sh). split; [lia|]. eauto.
  - intros p w ops f _ (_ & []).
  - intros w es IH (_ & T) k. apply all_Forall in T. split.
    + intros B. inversion B as [| |? a x b j Q| | | | | | | | | |]; subst.
      apply Forall_app in IH, T. destruct IH as [_ IH], T as [_ T]. inversion IH; inversion T; subst.
      match goal with X : typed nodyn x -> _, Y : typed nodyn x |- _ => apply (X Y) in Q end.
      destruct Q as [Q|Q]; [left; now apply BCat|right; now apply HCat].
    + intros B. assert (X : exists a x b j, es = a ++ x :: b /\ k = list_sum (map ew b) + j /\
                              (bset V no_hints x j \/ hcut h x j)).
      { destruct B as [B|B]; inversion B; subst; eauto 10. }
      destruct X as (a & x & b & j & -> & -> & Q).
      apply Forall_app in IH, T. destruct IH as [_ IH], T as [_ T]. inversion IH; inversion T; subst.
      apply BCat. match goal with X : typed nodyn x -> _, Y : typed nodyn x |- _ => now apply (X Y) end.
  - intros w [n|] e IH T k.
    + destruct T as (_ & T). specialize (IH T). split.
      * intros B. inversion B; subst. match goal with Q : bset V h e _ |- _ => apply IH in Q; destruct Q end;
          [left; now apply BRep|right; now apply HRep].
      * intros [B|B]; inversion B; subst; (apply BRep; [assumption|]); apply IH; auto.
    + split.
      * intros B. inversion B; subst. left. now constructor.
      * intros [B|B]; inversion B; subst. now constructor.
  - intros w prop si so fold e IH T k. split.
    + intros B. inversion B as [| | | | |? ? ? ? ? ? v L F| ? ? ? ? ? ? j F L Q|? ? ? ? ? ? F L|? ? ? ? ? ? F L L2| | | |]; subst.
      * left. eapply BFold; eauto.
      * destruct T as [T|T]; [lia|]. apply (IH T) in Q. destruct Q as [Q|Q].
        -- left. now apply BConv.
        -- right. apply HConv; auto. now apply folded_none.
      * left. now apply BPad.
      * left. now apply BNarrow.
    + intros [B|B].
      * inversion B as [| | | | |? ? ? ? ? ? v L F| ? ? ? ? ? ? j F L Q|? ? ? ? ? ? F L|? ? ? ? ? ? F L L2| | | |]; subst.
        -- eapply BFold; eauto.
        -- destruct T as [T|T]; [lia|]. apply BConv; auto. apply (IH T). auto.
        -- now apply BPad.
        -- now apply BNarrow.
      * inversion B; subst. destruct T as [T|T]; [lia|].
        apply BConv; [now apply folded_none|auto|]. apply (IH T). auto.
  - intros w s c l r m _ IHl IHr T k. cbn [typed] in T. split.
    + intros B. inversion B as [| | | | | | | | |? ? ? ? ? ? El Er Q|? ? ? ? ? ? El Er Q| |]; subst.
      * destruct (T eq_refl Er) as [Tl Tr]. apply (IHl Tl) in Q.
        destruct Q; [left; now apply BCondL|right; now apply HCondL].
      * destruct (T eq_refl Er) as [Tl Tr]. apply (IHr Tr) in Q.
        destruct Q; [left; now apply BCondR|right; now apply HCondR].
      * left. now apply BCondO.
    + intros [B|B].
      * inversion B as [| | | | | | | | |? ? ? ? ? ? El Er Q|? ? ? ? ? ? El Er Q| |]; subst.
        -- destruct (T eq_refl Er) as [Tl Tr]. apply BCondL; auto. apply (IHl Tl). auto.
        -- destruct (T eq_refl Er) as [Tl Tr]. apply BCondR; auto. apply (IHr Tr). auto.
        -- now apply BCondO.
      * inversion B as [| | | |? ? ? ? ? ? El Er Q|? ? ? ? ? ? El Er Q]; subst.
        -- destruct (T eq_refl Er) as [Tl Tr]. apply BCondL; auto. apply (IHl Tl). auto.
        -- destruct (T eq_refl Er) as [Tl Tr]. apply BCondR; auto. apply (IHr Tr). auto.
  - intros w fold ops f _ _ k. split.
    + intros B. inversion B; subst. left. now constructor.
    + intros [B|B]; inversion B; subst. now constructor.
Qed.

Lemma hint_boundaries h (e : expr) k : sorted_hints h -> typed nodyn e ->
  boundary (build vz h e []) k <-> boundary (build vz no_hints e []) k \/ hcut h e k.
Proof.
  intros Sh T.
  destruct (build_bset V vz h Sh e T [] 0 eq_refl) as (n1 & E1 & _ & B1).
  destruct (build_bset V vz no_hints no_hints_sorted e T [] 0 eq_refl) as (n2 & E2 & _ & B2).
  cbn [app] in E1, E2. rewrite E1, E2, B1, B2. cbn [plus]. split.
  - intros (j & Q & ->). apply (bset_hcut h Sh e T) in Q. destruct Q; eauto.
  - intros Q. exists k. split; [|reflexivity]. apply (bset_hcut h Sh e T).
    destruct Q as [(j & Q & ->)|Q]; auto.
Qed.

(** * Common refinement *)
Lemma seg_tiled_pairs : forall cs lo hi, StronglySorted lt cs -> hd_error cs = Some lo ->
  In hi cs -> (forall c, In c cs -> c <= hi) -> seg_tiled lo (pairs cs) hi.
Proof.
  induction cs as [|x cs IH]; intros lo hi S H I M; [discriminate|].
  cbn in H. inversion H; subst x; clear H. destruct cs as [|y cs].
  - cbn. destruct I as [->|[]]. reflexivity.
  - rewrite pairs_cons. cbn [seg_tiled fst snd]. inversion S as [|? ? S' F]; subst.
    inversion F; subst. split; [reflexivity|]. split; [assumption|].
    apply IH; auto.
    + destruct I as [->|I]; [|exact I]. pose proof (M y (or_intror (or_introl eq_refl))). lia.
    + intros c Ic. apply M. now right.
Qed.

Lemma align_tiled (l r : list slice) w : tiled 0 l w -> tiled 0 r w ->
  seg_tiled 0 (map (fun g => (slo g, shi g)) (alignSegments l r)) w.
Proof.
  intros Tl Tr. unfold alignSegments. rewrite map_map. cbn [slo shi].
  rewrite (map_ext _ (fun x => x)) by (now intros []). rewrite map_id.
  destruct (merge_facts V l r w Tl Tr) as (S & H & Iw & M & _). now apply seg_tiled_pairs.
Qed.

Lemma tiled_unique (l : list slice) : forall lo hi s t k, tiled lo l hi -> In s l -> In t l ->
  clo s <= k < chi s -> clo t <= k < chi t -> s = t.
Proof.
  induction l as [|x l IH]; intros lo hi s t k T I J A B; [destruct I|].
  cbn in T. destruct T as (E & L & T).
  destruct I as [<-|I], J as [<-|J]; auto.
  - pose proof (tiled_bounds V _ _ _ _ T J). lia.
  - pose proof (tiled_bounds V _ _ _ _ T I). lia.
  - eapply IH; eauto.
Qed.

Lemma align_inside (l r : list slice) w g : tiled 0 l w -> tiled 0 r w -> In g (alignSegments l r) ->
  exists s t, In s l /\ In t r /\ inside (slo g, shi g) s /\ inside (slo g, shi g) t /\
    lsrcs g = srcs s /\ rsrcs g = srcs t.
Proof.
  intros Tl Tr I. destruct (align_facts V l r w g Tl Tr I) as (L1 & L2 & B & _ & _ & Sg).
  destruct (Sg (slo g)) as [E1 E2]; [lia|].
  destruct (find_some_tiled V l 0 w (slo g) Tl) as (s & Fs & Is & Ks); [lia|].
  destruct (find_some_tiled V r 0 w (slo g) Tr) as (t & Ft & It & Kt); [lia|].
  exists s, t. unfold inside. cbn [fst snd].
  assert (Bs : boundary l (chi s)) by (exists s; auto).
  assert (Bt : boundary r (chi t)) by (exists t; auto).
  pose proof (B _ (or_introl Bs)). pose proof (B _ (or_intror Bt)).
  unfold srcs_at in E1, E2. rewrite Fs in E1. rewrite Ft in E2.
  repeat split; auto; lia.
Qed.

Lemma seg_tiled_find : forall gs lo hi k, seg_tiled lo gs hi -> lo <= k < hi ->
  exists g, In g gs /\ fst g <= k < snd g.
Proof.
  induction gs as [|g gs IH]; intros lo hi k T K; cbn in T; [lia|].
  destruct T as (E & L & T). destruct (Nat.lt_ge_cases k (snd g)) as [Q|Q].
  - exists g. split; [now left|lia].
  - destruct (IH _ _ k T) as (g' & I & A); [lia|]. exists g'. split; [now right|exact A].
Qed.

Lemma align_coarsest (l r : list slice) w gs g : tiled 0 l w -> tiled 0 r w ->
  seg_tiled 0 gs w ->
  (forall x, In x gs -> (exists s, In s l /\ inside x s) /\ exists t, In t r /\ inside x t) ->
  In g (alignSegments l r) -> exists x, In x gs /\ snd x = shi g.
Proof.
  intros Tl Tr Tg Hi I. destruct (align_facts V l r w g Tl Tr I) as (L1 & L2 & _ & _ & B & _).
  destruct (seg_tiled_find gs 0 w (shi g - 1) Tg) as (x & Ix & Kx); [lia|].
  exists x. split; [exact Ix|]. destruct (Hi x Ix) as [(s & Is & As) (t & It & At)].
  unfold inside in *.
  assert (X : forall m (sl : list slice) s, tiled 0 sl m -> boundary sl (shi g) -> In s sl ->
             clo s <= fst x -> snd x <= chi s -> snd x = shi g).
  { intros m sl s0 T (u & Iu & Eu) I0 A1 A2.
    pose proof (tiled_bounds V _ _ _ _ T Iu) as Bu.
    assert (u = s0) by (eapply (tiled_unique sl 0 m u s0 (shi g - 1)); eauto; lia).
    subst s0. lia. }
  destruct B as [B|B]; [eapply (X w l s)|eapply (X w r t)]; eauto; tauto.
Qed.

(** * Flow *)
Lemma together_seg (l r : list slice) w k1 k2 : tiled 0 l w -> tiled 0 r w -> k1 < w -> k2 < w ->
  (together l r k1 k2 <->
   exists g, In g (alignSegments l r) /\ slo g <= k1 < shi g /\ slo g <= k2 < shi g).
Proof.
  intros Tl Tr K1 K2. split.
  - intros H. destruct (align_cover V l r w k1 Tl Tr K1) as (g & I & A).
    exists g. split; [exact I|]. split; [exact A|].
    destruct (align_facts V l r w g Tl Tr I) as (L1 & L2 & _ & Bl & Bh & _).
    pose proof (H _ Bh). destruct Bl as [E|Bl]; [lia|]. pose proof (H _ Bl). lia.
  - intros (g & I & A & B) c Hc.
    destruct (align_facts V l r w g Tl Tr I) as (L1 & L2 & Bd & _).
    pose proof (Bd c Hc). lia.
Qed.

Lemma together_refl (l r : list slice) k : together l r k k.
Proof. intros c _. tauto. Qed.

Lemma Forall2_in_l {A B} (R : A -> B -> Prop) l m x : Forall2 R l m -> In x l ->
  exists y, In y m /\ R x y.
Proof.
  induction 1 as [|a b l m Hab F IH]; intros I; [destruct I|]. destruct I as [<-|I].
  - exists b. split; [now left|exact Hab].
  - destruct (IH I) as (y & Iy & Q). exists y. split; [now right|exact Q].
Qed.
Lemma Forall2_in_r {A B} (R : A -> B -> Prop) l m y : Forall2 R l m -> In y m ->
  exists x, In x l /\ R x y.
Proof.
  induction 1 as [|a b l m Hab F IH]; intros I; [destruct I|]. destruct I as [<-|I].
  - exists a. split; [now left|exact Hab].
  - destruct (IH I) as (x & Ix & Q). exists x. split; [now right|exact Q].
Qed.

Lemma flow_spec h (lhs rhs : expr) : sorted_hints h -> typed nodyn lhs -> typed nodyn rhs ->
  ew lhs = ew rhs ->
  exists ns, assign vz h false false lhs rhs = ANodes ns /\
    (forall s i t j, (exists n, In n ns /\ noted (ln n) s i /\ noted (rn n) t j) <->
       exists k1 k2, k1 < ew lhs /\ k2 < ew lhs /\
         together (build vz h lhs []) (build vz h rhs []) k1 k2 /\
         In (ABit (Some s) i) (nth k1 (bits vz lhs) []) /\
         In (ABit (Some t) j) (nth k2 (bits vz rhs) [])) /\
    (forall s i e, (exists n, In n ns /\ noted (ln n) s i /\ In e (ropq n)) <->
       exists k1 k2, k1 < ew lhs /\ k2 < ew lhs /\
         together (build vz h lhs []) (build vz h rhs []) k1 k2 /\
         In (ABit (Some s) i) (nth k1 (bits vz lhs) []) /\
         In (AOpq e) (nth k2 (bits vz rhs) [])).
Proof.
  intros Sh Tl Tr Ew. destruct (assign_spec V vz h lhs rhs Sh Tl Tr Ew) as (ns & E & F).
  destruct (build_list_spec V vz h lhs Sh Tl) as (Til & _ & _).
  destruct (build_list_spec V vz h rhs Sh Tr) as (Tir & _ & _). rewrite <- Ew in Tir.
  exists ns. split; [exact E|]. split.
  - intros s i t j. split.
    + intros (n & I & A & B). destruct (Forall2_in_r _ _ _ _ F I) as (g & Ig & Q).
      destruct Q as (Q1 & Q2 & _). apply Q1 in A. apply Q2 in B.
      destruct A as (k1 & K1 & A), B as (k2 & K2 & B).
      destruct (align_facts V _ _ _ g Til Tir Ig) as (L1 & L2 & _).
      exists k1, k2. split; [lia|]. split; [lia|]. split; [|auto].
      apply (together_seg _ _ (ew lhs)); auto; [lia|lia|]. eauto.
    + intros (k1 & k2 & K1 & K2 & T & A & B). apply (together_seg _ _ (ew lhs)) in T; auto.
      destruct T as (g & Ig & G1 & G2). destruct (Forall2_in_l _ _ _ _ F Ig) as (n & I & Q1 & Q2 & _).
      exists n. split; [exact I|]. split; [apply Q1; eauto|apply Q2; eauto].
  - intros s i e. split.
    + intros (n & I & A & B). destruct (Forall2_in_r _ _ _ _ F I) as (g & Ig & Q).
      destruct Q as (Q1 & _ & Q3 & _). apply Q1 in A. apply Q3 in B.
      destruct A as (k1 & K1 & A), B as (k2 & K2 & B).
      destruct (align_facts V _ _ _ g Til Tir Ig) as (L1 & L2 & _).
      exists k1, k2. split; [lia|]. split; [lia|]. split; [|auto].
      apply (together_seg _ _ (ew lhs)); auto; [lia|lia|]. eauto.
    + intros (k1 & k2 & K1 & K2 & T & A & B). apply (together_seg _ _ (ew lhs)) in T; auto.
      destruct T as (g & Ig & G1 & G2).
      destruct (Forall2_in_l _ _ _ _ F Ig) as (n & I & Q1 & _ & Q3 & _).
      exists n. split; [exact I|]. split; [apply Q1; eauto|apply Q3; eauto].
Qed.

(** * Constants *)
Lemma const_slice_ok (v : list V) lo (g : segment V) :
  lo <= slo g -> slo g < shi g -> shi g <= lo + length v ->
  const_slice v lo g = firstn (shi g - slo g) (skipn (slo g - lo) v).
Proof.
  intros A B C. unfold const_slice. cbv zeta.
  destruct (Nat.eqb_spec (length v) (shi g - slo g)) as [L|L]; [|reflexivity].
  replace (slo g - lo) with 0 by lia. cbn [skipn]. now rewrite <- L, firstn_all.
Qed.

Lemma const_concat (v : list V) lo : forall (gs : list (segment V)) a,
  lo <= a -> seg_tiled a (map (fun g => (slo g, shi g)) gs) (lo + length v) ->
  concat (map (const_slice v lo) gs) = skipn (a - lo) v.
Proof.
  induction gs as [|g gs IH]; intros a A T; cbn in T.
  - subst a. cbn. now rewrite skipn_all2 by lia.
  - destruct T as (E & L & T). cbn [map concat].
    assert (Lh : shi g <= lo + length v).
    { clear -T. revert T. generalize (shi g). induction gs as [|x gs IH]; intros m T; cbn in T; [lia|].
      destruct T as (E & L & T). apply IH in T. lia. }
    rewrite const_slice_ok by lia. rewrite (IH (shi g)) by (auto; lia).
    subst a. rewrite <- (firstn_skipn (shi g - slo g) (skipn (slo g - lo) v)) at 2. f_equal.
    assert (Sk : forall (x : list V) m n, skipn m (skipn n x) = skipn (n + m) x).
    { clear. induction x as [|y x IH]; intros m [|n]; cbn; auto. now rewrite skipn_nil. }
    rewrite Sk. f_equal. lia.
Qed.

End P3.
