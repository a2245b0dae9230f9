(** Proofs about the cuts recorded from port connections. *)
From Coq Require Import Sorted NArith Nnat.
From Verif Require Import Base M_Graph M_Range M_Netlist M_Annot M_Interval M_Heap M_Drivers M_Pending M_DFA M_Builder M_Slice M_Port
  S_Interval S_Drivers S_DFA S_Builder S_Slice S_Port P_Slice P_Slice2 P_Slice3 P_Interval P_Heap P_Drivers P_Builder P_Port P_Port2.

Lemma reg_sorted_iff g : reg_sorted g <-> forall s, StronglySorted N.lt (regl g s).
Proof.
  unfold reg_sorted, cutsFor, regl. split.
  - intros S s. destruct (g s) as [l|] eqn:E; [exact (S s l E)|constructor].
  - intros S s l E. specialize (S s). now rewrite E in S.
Qed.
Lemma has_cut_iff g s c : has_cut g s c <-> In (N.of_nat c) (regl g s).
Proof.
  unfold has_cut, cutsFor, regl. destruct (g s) as [l|]; split.
  - intros (l' & [= <-] & I). exact I.
  - eauto.
  - intros (l' & Q & _). discriminate.
  - intros [].
Qed.

Lemma sorted_to_nat l : StronglySorted N.lt l -> StronglySorted lt (map N.to_nat l).
Proof.
  induction l as [|x l IH]; intros S; cbn; [constructor|]. inversion S as [|? ? S2 F]; subst. constructor; [auto|].
  rewrite Forall_forall in *. intros y I. apply in_map_iff in I. destruct I as (z & <- & I). specialize (F z I). lia.
Qed.
Lemma hints_sorted g : reg_sorted g -> sorted_hints (hints_of g).
Proof.
  intros S s l E. apply reg_sorted_iff with (s := s) in S. unfold hints_of, cutsFor, regl in *. destruct (g s) as [r|]; [|discriminate].
  injection E as <-. now apply sorted_to_nat.
Qed.
Lemma hints_in g s c : (exists l, hints_of g s = Some l /\ In c l) <-> In (N.of_nat c) (regl g s).
Proof.
  unfold hints_of, cutsFor, regl. destruct (g s) as [r|]; cbn.
  - split.
    + intros (l & [= <-] & I). apply in_map_iff in I. destruct I as (z & <- & I). now rewrite N2Nat.id.
    + intros I. eexists. split; [reflexivity|]. apply in_map_iff. exists (N.of_nat c). split; [apply Nat2N.id|exact I].
  - split; [intros (l & E & _); discriminate|intros []].
Qed.

Section R.
Context {V : Type}.
Variable vz : V.
Variable symw : nat -> N.

Lemma add_sorted g sy cuts : reg_sorted g -> reg_sorted (addCuts symw g sy cuts).
Proof.
  rewrite !reg_sorted_iff. intros S s. exact (cut_run_strict symw s [(sy, cuts)] g (S s)).
Qed.
Lemma record_sorted g (x : @pconn V) : reg_sorted g -> reg_sorted (record_one symw g x).
Proof.
  intros S. unfold record_one. destruct (cactual x) as [e|]; [|exact S]. destruct (cinternal x) as [sy|]; [|exact S].
  destruct (negb (cintegral x) || negb (cwidth x =? ew e)); [exact S|now apply add_sorted].
Qed.
Lemma recordCuts_sorted : forall (xs : list (@pconn V)) g, reg_sorted g -> reg_sorted (recordCuts symw g xs).
Proof.
  induction xs as [|x xs IH]; intros g S; [exact S|]. cbn [recordCuts fold_left]. apply IH. now apply record_sorted.
Qed.

Lemma record_in g (x : @pconn V) s c :
  In c (regl (record_one symw g x) s) <-> In c (regl g s) \/
    exists e, eligible x s e /\ In (N.to_nat c) (actual_cuts (hints_of g) 0 e) /\ (0 < c < symw s)%N.
Proof.
  unfold record_one, eligible. destruct (cactual x) as [e|]; [|split; [auto|intros [H|(e & (Q & _) & _)]; [auto|discriminate]]].
  destruct (cinternal x) as [sy|]; [|split; [auto|intros [H|(e' & (_ & Q & _) & _)]; [auto|discriminate]]].
  destruct (negb (cintegral x) || negb (cwidth x =? ew e)) eqn:E.
  - split; [auto|]. intros [H|(e' & (Q1 & _ & Q2 & Q3) & _)]; [auto|]. injection Q1 as <-. rewrite Q2, Q3, Nat.eqb_refl in E. discriminate.
  - rewrite addCuts_in. split.
    + intros [H|(<- & I & L)]; [auto|]. right. exists e. split.
      * split; [reflexivity|]. split; [reflexivity|]. split; [destruct (cintegral x); [reflexivity|discriminate]|].
        destruct (Nat.eqb_spec (cwidth x) (ew e)); [assumption|]. destruct (cintegral x); discriminate.
      * split; [|exact L]. apply in_map_iff in I. destruct I as (k & <- & I). now rewrite Nat2N.id.
    + intros [H|(e' & (Q1 & Q & _) & I & L)]; [auto|]. injection Q as ->. injection Q1 as ->. right. split; [reflexivity|]. split; [|exact L].
      apply in_map_iff. exists (N.to_nat c). split; [apply N2Nat.id|exact I].
Qed.

Lemma recordCuts_in : forall (xs : list (@pconn V)) g s c,
  In c (regl (recordCuts symw g xs) s) <-> In c (regl g s) \/
    exists p x q e, xs = p ++ x :: q /\ eligible x s e /\
      In (N.to_nat c) (actual_cuts (hints_of (recordCuts symw g p)) 0 e) /\ (0 < c < symw s)%N.
Proof.
  induction xs as [|x xs IH]; intros g s c.
  - cbn [recordCuts fold_left]. split; [auto|]. intros [H|(p & y & q & e & E & _)]; [auto|]. destruct p; discriminate.
  - change (recordCuts symw g (x :: xs)) with (recordCuts symw (record_one symw g x) xs). rewrite IH, record_in. split.
    + intros [[H|(e & El & I & L)]|(p & y & q & e & -> & El & I & L)]; [auto| |].
      * right. exists [], x, xs, e. auto.
      * right. exists (x :: p), y, q, e. auto.
    + intros [H|(p & y & q & e & E & El & I & L)]; [auto|]. destruct p as [|z p]; injection E as -> ->.
      * left. right. exists e. auto.
      * right. exists p, y, q, e. auto.
Qed.

Lemma recorded g (xs : list (@pconn V)) s c : reg_sorted g -> (forall x, In x xs -> forall sy e, eligible x sy e -> typed nodyn e /\ concat_shaped e /\ symw sy = N.of_nat (ew e)) ->
  In (N.of_nat c) (regl (recordCuts symw g xs) s) <-> In (N.of_nat c) (regl g s) \/
    exists p x q e, xs = p ++ x :: q /\ eligible x s e /\ 0 < c < ew e /\
      boundary (build vz (hints_of (recordCuts symw g p)) e []) c.
Proof.
  intros S T. rewrite recordCuts_in, Nat2N.id.
  assert (A : forall p x q e, xs = p ++ x :: q -> eligible x s e -> 0 < c < ew e ->
     (In c (actual_cuts (hints_of (recordCuts symw g p)) 0 e) <-> boundary (build vz (hints_of (recordCuts symw g p)) e []) c)).
  { intros p x q e -> El L. destruct (T x) with (sy := s) (e := e) as (T1 & T2 & _); [apply in_app_iff; right; now left|exact El|].
    apply (cuts_boundary vz (fun _ => []) _ (hints_sorted _ (recordCuts_sorted p g S))); auto. }
  split; (intros [H|(p & x & q & e & E & El & H)]; [auto|]; right; exists p, x, q, e).
  - destruct H as [I L]. destruct (T x) with (sy := s) (e := e) as (T1 & T2 & T3); [rewrite E; apply in_app_iff; right; now left|exact El|].
    rewrite T3 in L. split; [exact E|]. split; [exact El|]. split; [lia|]. apply (A p x q e); auto. lia.
  - destruct H as [L B]. destruct (T x) with (sy := s) (e := e) as (T1 & T2 & T3); [rewrite E; apply in_app_iff; right; now left|exact El|].
    split; [exact E|]. split; [exact El|]. split; [apply (A p x q e); auto|]. rewrite T3. lia.
Qed.

(** Cuts are only added. *)
Lemma recordCuts_mono (xs : list (@pconn V)) g s c : In c (regl g s) -> In c (regl (recordCuts symw g xs) s).
Proof. intros I. apply recordCuts_in. auto. Qed.

(** A port node never straddles a slice boundary of the actual. *)
Lemma no_straddle g (xs : list (@pconn V)) x sy e bs port ds s' m lo hi c : reg_sorted g ->
  (forall x, In x xs -> forall sy e, eligible x sy e -> typed nodyn e /\ concat_shaped e /\ symw sy = N.of_nat (ew e)) ->
  In x xs -> eligible x sy e -> ascending ds ->
  materializePortNodes (hints_of (recordCuts symw g xs)) bs port (Some sy) ds = DOk s' ->
  In (m, BPort port (zrange lo hi)) (skipn (length (bnodes bs)) (bnodes s')) ->
  boundary (build vz (hints_of g) e []) c -> c < ew e -> ~ lo < c <= hi.
Proof.
  intros S T I El A E In_ B L Lc.
  assert (Sg : reg_sorted (recordCuts symw g xs)) by (now apply recordCuts_sorted).
  destruct (materialize_nodes (hints_of (recordCuts symw g xs)) bs port sy ds s' A) as (new & E1 & _ & _ & _ & F & _).
  { intros hs Q. exact (hints_sorted _ Sg _ _ Q). }
  { exact E. }
  rewrite E1, skipn_app, Nat.sub_diag, skipn_all in In_. cbn in In_.
  destruct (F _ _ In_) as (lo' & hi' & a & b & y & Q & _ & _ & _ & _ & _ & N). unfold zrange in Q. injection Q as Q1 Q2.
  assert (lo' = lo) by lia. assert (hi' = hi) by lia. subst lo' hi'.
  assert (Ic : In (N.of_nat c) (regl (recordCuts symw g xs) sy)).
  { apply in_split in I. destruct I as (p & q & Ex). apply (recorded g xs sy c S T). right. exists p, x, q, e. split; [exact Ex|].
    split; [exact El|]. split; [lia|]. destruct (T x) with (sy := sy) (e := e) as (T1 & _ & _); [rewrite Ex; apply in_app_iff; right; now left|exact El|].
    assert (Sp : reg_sorted (recordCuts symw g p)) by (now apply recordCuts_sorted).
    destruct (build_bset V vz _ (hints_sorted _ S) e T1 [] 0 eq_refl) as (n1 & E2 & _ & B1).
    destruct (build_bset V vz _ (hints_sorted _ Sp) e T1 [] 0 eq_refl) as (n2 & E3 & _ & B2).
    cbn [app] in E2, E3. rewrite E2 in B. rewrite E3. apply B1 in B. apply B2. destruct B as (j & Bj & ->). exists j. split; [|reflexivity].
    revert Bj. apply bset_mono. intros pp d Id.
    apply (proj2 (splits_spec _ pp (hints_sorted _ S))) in Id. destruct Id as (Ld & s0 & l0 & R0 & H0 & I0).
    apply (proj2 (splits_spec _ pp (hints_sorted _ Sp))). split; [exact Ld|].
    destruct (proj2 (hints_in (recordCuts symw g p) s0 d)) as (l1 & H1 & I1); [apply recordCuts_mono, hints_in; eauto|].
    exists s0, l1. auto. }
  apply hints_in in Ic. destruct Ic as (hs & Hh & Ih). exact (N hs c Hh Ih Lc).
Qed.

End R.

(** * Effect on the builder *)
Section A.
Context {V : Type}.
Variable sykind : nat -> skind.
Variable nm : nat -> str.
Variable backrefs : nat -> list nat.
Variable behind : nat -> nat -> list ipath.

Lemma drv_has d i n : drives d i n <-> has d i n.
Proof. unfold drives, has, S_Interval.inside. split; intros (x & l & H); exists x, l; tauto. Qed.
Definition act_pend (a : @pact V) : list pend :=
  match a with PRead sy lo hi n => if (match sykind sy with SkModport => true | _ => false end) then []
    else [Pend sy (nm sy) (zrange lo hi) (Some n) EKNone] | _ => [] end.

Lemma apply_one s (a : @pact V) : gok s -> (forall sy lo hi n, a = PDrive sy lo hi n -> lo <= hi) ->
  exists s', apply_act sykind nm backrefs behind s a = DOk s' /\ gok s' /\ bvt s' = bvt s /\
    (exists new, bnodes s' = bnodes s ++ new) /\ (exists ds, bdeps s' = bdeps s ++ ds) /\
    bpend s' = bpend s ++ act_pend a /\
    (forall sy i n, drives_global (bdm s) sy i n -> drives_global (bdm s') sy i n) /\
    (forall sy lo hi n i, a = PDrive sy lo hi n -> lo <= i <= hi -> drives_global (bdm s') sy (Z.of_nat i) n) /\
    (forall v ns, a = PConst v ns -> bnodes s' = bnodes s ++ [(bnext s, BConst)] /\ bnext s' = S (bnext s) /\
       forall n, In n ns -> In (DPlain (bnext s) n) (bdeps s')) /\
    (forall sy, (forall lo hi n, a <> PDrive sy lo hi n) -> bdm s' sy = bdm s sy).
Proof.
  intros G Lo. destruct a as [sy lo hi n|sy lo hi n|v ns]; cbn [apply_act].
  - specialize (Lo sy lo hi n eq_refl). unfold baddDrivers. set (d0 := match bdm s sy with Some d => d | None => dm_empty end).
    assert (K0 : dok d0 /\ allvalid d0).
    { unfold d0. destruct (bdm s sy) as [d'|] eqn:E; [exact (G sy d' E)|]. split; [apply dok_empty|intros y []]. }
    destruct K0 as [K0 V0]. destruct (addDrivers_merge d0 (zrange lo hi) [n] K0 V0) as (d1 & E & K1 & V1 & A & C).
    rewrite E. cbn [dbind]. eexists. split; [reflexivity|]. split.
    { intros sy' d' Q. cbn in Q. unfold upd in Q. destruct (Nat.eqb sy' sy); [injection Q as <-; auto|eauto]. }
    split; [reflexivity|]. split; [exists []; cbn; now rewrite app_nil_r|]. split; [eexists; reflexivity|]. split; [cbn; now rewrite app_nil_r|].
    split; [|split; [|split]].
    + intros sy' i m (d' & Q & H). unfold drives_global. cbn. unfold upd. destruct (Nat.eqb_spec sy' sy) as [->|]; [|eauto].
      exists d1. split; [reflexivity|]. assert (E0 : d0 = d') by (unfold d0; now rewrite Q). rewrite <- E0 in H.
      apply drv_has. apply A. apply drv_has. exact H.
    + intros sy' lo' hi' n' i [= <- <- <- <-] Li. exists d1. cbn. unfold upd. rewrite Nat.eqb_refl. split; [reflexivity|]. apply drv_has. apply C; [|now left].
      unfold zrange, lower, upper. cbn. lia.
    + intros v ns Q. discriminate.
    + intros sy' Ne. cbn. unfold upd. destruct (Nat.eqb_spec sy' sy) as [->|]; [|reflexivity]. destruct (Ne lo hi n eq_refl).
  - assert (P : exists ds ps, baddRvalue sykind nm behind s sy (zrange lo hi) (Some n) =
        Bld (bnext s) (bnodes s) (bvt s) (bdm s) (bdeps s ++ ds) (bpend s ++ ps) /\ ps = act_pend (PRead sy lo hi n)).
    { unfold baddRvalue. cbn [act_pend]. destruct (sykind sy).
      - eexists. exists []. rewrite (app_nil_r (bpend s)). split; reflexivity.
      - exists []. eexists. rewrite (app_nil_r (bdeps s)). split; reflexivity.
      - exists []. eexists. rewrite (app_nil_r (bdeps s)). split; reflexivity. }
    destruct P as (ds & ps & E & ->). rewrite E. eexists. split; [reflexivity|]. split; [exact G|]. split; [reflexivity|].
    split; [exists []; cbn; now rewrite app_nil_r|]. split; [eexists; reflexivity|]. split; [reflexivity|]. split; [auto|].
    split; [intros; discriminate|]. split; [intros; discriminate|]. reflexivity.
  - eexists. split; [reflexivity|]. split; [exact G|]. split; [reflexivity|]. split; [eexists; reflexivity|]. split; [eexists; reflexivity|].
    split; [cbn; now rewrite app_nil_r|]. split; [auto|]. split; [intros; discriminate|]. split; [|reflexivity].
    intros v' ns' [= <- <-]. split; [reflexivity|]. split; [reflexivity|]. intros n I. cbn. apply in_app_iff. right. apply in_map_iff. eauto.
Qed.

Lemma apply_all : forall (l : list (@pact V)) s, gok s -> (forall sy lo hi n, In (PDrive sy lo hi n) l -> lo <= hi) ->
  exists s', apply_acts sykind nm backrefs behind s l = DOk s' /\ gok s' /\ bvt s' = bvt s /\
    (exists new, bnodes s' = bnodes s ++ new) /\ (exists ds, bdeps s' = bdeps s ++ ds) /\
    bpend s' = bpend s ++ flat_map act_pend l /\
    (forall sy i n, drives_global (bdm s) sy i n -> drives_global (bdm s') sy i n) /\
    (forall sy lo hi n i, In (PDrive sy lo hi n) l -> lo <= i <= hi -> drives_global (bdm s') sy (Z.of_nat i) n) /\
    (forall v ns, In (PConst v ns) l -> exists c, In (c, BConst) (bnodes s') /\ forall n, In n ns -> In (DPlain c n) (bdeps s')) /\
    (forall sy, (forall lo hi n, ~ In (PDrive sy lo hi n) l) -> bdm s' sy = bdm s sy).
Proof.
  induction l as [|a l IH]; intros s G Lo; cbn [apply_acts].
  - exists s. split; [reflexivity|]. split; [exact G|]. split; [reflexivity|]. split; [exists []; now rewrite app_nil_r|].
    split; [exists []; now rewrite app_nil_r|]. split; [cbn; now rewrite app_nil_r|]. split; [auto|].
    split; [intros sy lo hi n i []|]. split; [intros v ns []|]. reflexivity.
  - destruct (apply_one s a G) as (s1 & E1 & G1 & A1 & (n1 & A2) & (d1 & A3) & A4 & A5 & A6 & A7 & A8).
    { intros sy lo hi n ->. apply (Lo sy lo hi n). now left. }
    rewrite E1. cbn [dbind]. destruct (IH s1 G1) as (s2 & E2 & G2 & B1 & (n2 & B2) & (d2 & B3) & B4 & B5 & B6 & B7 & B8).
    { intros sy lo hi n I. apply (Lo sy lo hi n). now right. }
    exists s2. split; [exact E2|]. split; [exact G2|]. split; [congruence|].
    split; [exists (n1 ++ n2); now rewrite B2, A2, app_assoc|]. split; [exists (d1 ++ d2); now rewrite B3, A3, app_assoc|].
    split; [cbn [flat_map]; now rewrite B4, A4, app_assoc|]. split; [auto|]. split; [|split].
    + intros sy lo hi n i [->|I] L; [apply B5; eapply A6; eauto|eapply B6; eauto].
    + intros v ns [->|I]; [|eauto]. destruct (A7 v ns eq_refl) as (Q1 & Q2 & Q3). exists (bnext s). split.
      * rewrite B2, Q1. apply in_app_iff. left. apply in_app_iff. right. now left.
      * intros n I. rewrite B3. apply in_app_iff. left. auto.
    + intros sy H. rewrite B8, A8; [reflexivity| |].
      * intros lo hi n ->. apply (H lo hi n). now left.
      * intros lo hi n I. apply (H lo hi n). now right.
Qed.
End A.
