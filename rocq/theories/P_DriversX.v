(** Exactness of driver maps while no driver list is shared between intervals. *)
From Coq Require Import Sorted.
From Verif Require Import Base M_Range M_Interval M_Heap M_Drivers S_Interval S_Drivers
  P_Interval P_Heap P_Drivers.
Local Open Scope Z_scope.

(** ** Exactness when no handle is shared *)
Definition unshared (d : dmap) : Prop :=
  allvalid d /\ forall x y, In x (ivs d) -> In y (ivs d) -> ival x = ival y -> x = y.

(** No entry extends beyond the bounds on both sides. *)
Definition noinner (d : dmap) (B U : Z) : Prop :=
  forall y, In y (ivs d) -> ~ (ilo y < B /\ U < ihi y).

Definition goalF (merge : bool) (dl : dlist) (d : dmap) (B U i : Z) (n : nat) : Prop :=
  (B <= i <= U /\ (In n dl \/ (merge = true /\ has d i n))) \/ (~ (B <= i <= U) /\ has d i n).

(** The drivers of bit [i] from entries other than [x]. *)
Definition hasO (d : dmap) (x : iv nat) (i : Z) (n : nat) : Prop :=
  exists y l, In y (ivs d) /\ (ihi x < ilo y \/ ihi y < ilo x) /\ inside y i /\
    get (lists d) (ival y) = Some l /\ In n l.

Lemma has_split d x lx i n : wf (ivs d) -> In x (ivs d) -> get (lists d) (ival x) = Some lx ->
  (has d i n <-> (ilo x <= i <= ihi x /\ In n lx) \/ hasO d x i n).
Proof.
  intros W Ix G. split.
  - intros (y & l & I & C & Gy & N). destruct (wf_other (ivs d) x y W Ix I) as [->|D].
    + left. split; [exact C|]. congruence.
    + right. exists y, l. auto.
  - intros [[C N]|(y & l & I & D & C & Gy & N)].
    + exists x, lx. auto.
    + exists y, l. auto.
Qed.

Ltac only_arith :=
  repeat match goal with
  | H : ?T |- _ =>
      match T with
      | _ <= _ => fail 1
      | _ < _ => fail 1
      | _ <= _ <= _ => fail 1
      | _ \/ _ => fail 1
      | _ => clear H
      end
  end.

Ltac bitcases i x B U :=
  match goal with
  | P : hasO _ x i ?n -> _ |- _ =>
    revert P; only_arith; intros P;
    destruct (Z_lt_le_dec i (ilo x)), (Z_lt_le_dec (ihi x) i), (Z_lt_le_dec i B),
      (Z_lt_le_dec U i); try (exfalso; lia);
    intuition (try lia; try discriminate)
  end.

Lemma effect_exact merge dl d B U x o :
  dok d -> unshared d -> noinner d B U -> B <= U -> In x (ivs d) -> ilo x <= U -> B <= ihi x ->
  (forall y, In y (ivs d) -> y = x \/ ihi x < ilo y \/ (ihi y < ilo x /\ ihi y < B)) ->
  effect merge dl d B U x o ->
  match o with
  | Return d' => unshared d' /\ forall i n, has d' i n <-> goalF merge dl d B U i n
  | Again d' b' => unshared d' /\ noinner d' (rleft b') U /\
      forall i n, goalF merge dl d' (rleft b') U i n <-> goalF merge dl d B U i n
  | Skip => False
  end.
Proof.
  intros [W K] [V J] NI LU Ix X1 X2 X3 E. pose proof (proj1 W x Ix) as Xne.
  destruct (allvalid_some d x V Ix) as (lx & Gx).
  (* other entries have other handles *)
  assert (Jo : forall y, In y (ivs d) -> (ihi x < ilo y \/ ihi y < ilo x) ->
                 Nat.eqb (ival y) (ival x) = false).
  { intros y I D. apply Nat.eqb_neq. intros Q. rewrite (J y x I Ix Q) in D. lia. }
  assert (Ps : forall i n, hasO d x i n -> (i < B \/ ihi x < i) /\ (i < ilo x \/ ihi x < i)).
  { intros i n (y & l & I & D & C & _). unfold inside in C.
    destruct (X3 y I) as [->|Q]; lia. }
  assert (Hs : forall i n, has d i n <-> (ilo x <= i <= ihi x /\ In n lx) \/ hasO d x i n)
    by (intros i n; apply has_split; auto).
  pose proof (fun h G y I => fresh_entry d h y V G I) as Fr.
  assert (Oo : forall y, In y (ivs d) -> y = x \/ ihi x < ilo y \/ ihi y < ilo x)
    by (intros y; apply wf_other; auto).
  destruct E; subst.
  - (* equal *)
    assert (l = lx) by congruence. subst l.
    assert (HV : forall i n, has (DM (ivs d) m) i n <->
       (ilo x <= i <= ihi x /\ In n (dunion (if merge then lx else []) dl)) \/ hasO d x i n).
    { intros i n. split.
      - intros (y & l & I & C & G & N). cbn [ivs lists] in *. rewrite H3 in G.
        destruct (Oo y I) as [->|D].
        + rewrite Nat.eqb_refl in G. inversion G; subst. left. auto.
        + rewrite (Jo y I D) in G. right. exists y, l. auto.
      - intros [[C N]|(y & l & I & D & C & G & N)].
        + exists x. eexists. cbn [ivs lists]. rewrite H3, Nat.eqb_refl. eauto.
        + exists y, l. cbn [ivs lists]. rewrite H3, (Jo y I D). auto. }
    split; [split|].
    + intros y I. cbn [lists]. rewrite H3. destruct (Nat.eqb _ _); [discriminate|]. apply V, I.
    + exact J.
    + intros i n. rewrite HV. unfold goalF. rewrite Hs, in_dunion. specialize (Ps i n).
      destruct merge; cbn [In]; bitcases i x (ilo x) (ihi x).
  - (* inside an existing entry, aligned with one end *)
    assert (HB : ilo x = B \/ ihi x = U) by (specialize (NI x Ix); lia).
    assert (Fx := Fr h H4 x Ix).
    assert (HV : forall i n, has (DM v m) i n <->
       (B <= i <= U /\ In n l) \/ (ilo x <= i <= ihi x /\ ~ (B <= i <= U) /\ In n lx) \/
       hasO d x i n).
    { intros i n. split.
      - intros (y & l1 & I & C & G & N). unfold inside in C. cbn [ivs lists] in *.
        rewrite H7 in G. apply H8 in I. destruct I as [->|[[A ->]|[[A ->]|[I D]]]]; cbn [ilo ihi ival] in *.
        + rewrite Nat.eqb_refl in G. inversion G; subst. left. auto.
        + rewrite Fx, Gx in G. inversion G; subst. right. left. split; [lia|]. split; [lia|auto].
        + rewrite Fx, Gx in G. inversion G; subst. right. left. split; [lia|]. split; [lia|auto].
        + rewrite (Fr h H4 y I) in G. right. right. exists y, l1. unfold inside. auto.
      - intros [[C N]|[(C & D & N)|(y & l1 & I & D & C & G & N)]].
        + exists (IV B U h), l. cbn [ivs lists ival]. rewrite H7, H8, Nat.eqb_refl.
          unfold inside; cbn [ilo ihi]. auto.
        + destruct (Z_lt_le_dec i B).
          * exists (IV (ilo x) (B - 1) (ival x)), lx. cbn [ivs lists ival]. rewrite H7, H8, Fx.
            unfold inside; cbn [ilo ihi]. split; [right; left; split; [lia|auto]|]. split; [lia|auto].
          * exists (IV (U + 1) (ihi x) (ival x)), lx. cbn [ivs lists ival]. rewrite H7, H8, Fx.
            unfold inside; cbn [ilo ihi].
            split; [right; right; left; split; [lia|auto]|]. split; [lia|auto].
        + exists y, l1. cbn [ivs lists]. rewrite H7, H8, (Fr h H4 y I). auto 10. }
    split; [split|].
    + intros y I. cbn [ivs lists] in *. rewrite H7. apply H8 in I.
      destruct I as [->|[[A ->]|[[A ->]|[I D]]]]; cbn [ival].
      * rewrite Nat.eqb_refl. discriminate.
      * rewrite Fx. apply V, Ix.
      * rewrite Fx. apply V, Ix.
      * rewrite (Fr h H4 y I). apply V, I.
    + intros y z Iy Iz Q. cbn [ivs] in *. apply H8 in Iy, Iz. apply Nat.eqb_neq in Fx.
      destruct Iy as [->|[[A ->]|[[A ->]|[I D]]]], Iz as [->|[[A' ->]|[[A' ->]|[I' D']]]];
        cbn [ival] in Q; try reflexivity; try congruence; try lia.
      * symmetry in Q. apply Nat.eqb_eq in Q. rewrite (Fr h H4 z I') in Q. discriminate.
      * symmetry in Q. apply Nat.eqb_eq in Q. rewrite (Jo z I' D') in Q. discriminate.
      * symmetry in Q. apply Nat.eqb_eq in Q. rewrite (Jo z I' D') in Q. discriminate.
      * apply Nat.eqb_eq in Q. rewrite (Fr h H4 y I) in Q. discriminate.
      * apply Nat.eqb_eq in Q. rewrite (Jo y I D) in Q. discriminate.
      * apply Nat.eqb_eq in Q. rewrite (Jo y I D) in Q. discriminate.
      * apply J; auto.
    + intros i n. rewrite HV. unfold goalF. rewrite Hs. specialize (Ps i n).
      destruct merge.
      * destruct (H5 eq_refl) as (l0 & G0 & ->). assert (l0 = lx) by congruence. subst l0.
        rewrite in_dunion. bitcases i x B U.
      * rewrite (H6 eq_refl). bitcases i x B U.
  - (* erase a covered entry *)
    assert (HV : forall i n, has (DM v m) i n <-> hasO d x i n).
    { intros i n. split.
      - intros (y & l & I & C & G & N). cbn [ivs lists] in *. apply H5 in I. destruct I as [I D].
        rewrite H4, (Jo y I D) in G. exists y, l. auto.
      - intros (y & l & I & D & C & G & N). exists y, l. cbn [ivs lists].
        rewrite H4, H5, (Jo y I D). auto. }
    split; [split|split].
    + intros y I. cbn [ivs lists] in *. apply H5 in I. destruct I as [I D].
      rewrite H4, (Jo y I D). apply V, I.
    + intros y z Iy Iz Q. cbn [ivs] in *. apply H5 in Iy, Iz. apply J; tauto.
    + intros y I. cbn [ivs rleft] in *. apply H5 in I. apply NI. tauto.
    + intros i n. cbn [rleft]. unfold goalF. rewrite HV, Hs. specialize (Ps i n).
      bitcases i x B U.
  - (* merge over a covered entry *)
    assert (l = lx) by congruence. subst l.
    assert (Fh : B < ilo x -> forall y, In y (ivs d) -> Nat.eqb (ival y) h = false)
      by (intros L y I; apply Fr; auto).
    assert (Go : forall y, In y (ivs d) -> (ihi x < ilo y \/ ihi y < ilo x) ->
                   get m (ival y) = get (lists d) (ival y)).
    { intros y I D. rewrite H6, (Jo y I D). destruct (Nat.eqb (ival y) h) eqn:Q; [|reflexivity].
      destruct (Z.ltb_spec B (ilo x)) as [L|L]; [|reflexivity]. rewrite (Fh L y I) in Q.
      discriminate. }
    assert (Gm : get m (ival x) = Some (dunion lx dl)) by (rewrite H6, Nat.eqb_refl; reflexivity).
    assert (Gh : B < ilo x -> get m h = Some dl).
    { intros L. rewrite H6, Nat.eqb_refl. rewrite Nat.eqb_sym, (Fh L x Ix).
      now rewrite (proj2 (Z.ltb_lt _ _) L). }
    assert (HV : forall i n, has (DM v m) i n <->
       (ilo x <= i <= ihi x /\ In n (dunion lx dl)) \/ (B <= i < ilo x /\ In n dl) \/ hasO d x i n).
    { intros i n. split.
      - intros (y & l & I & C & G & N). unfold inside in C. cbn [ivs lists] in *. apply H7 in I.
        destruct I as [I|[A ->]].
        + destruct (Oo y I) as [->|D].
          * rewrite Gm in G. inversion G; subst. auto.
          * rewrite (Go y I D) in G. right. right. exists y, l. auto.
        + cbn [ival ilo ihi] in *. rewrite (Gh A) in G. inversion G; subst. right. left.
          split; [lia|auto].
      - intros [[C N]|[[C N]|(y & l & I & D & C & G & N)]].
        + exists x. eexists. cbn [ivs lists]. rewrite H7. eauto 6.
        + exists (IV B (ilo x - 1) h), dl. cbn [ivs lists ival]. rewrite H7. rewrite Gh by lia.
          unfold inside; cbn [ilo ihi]. split; [right; split; [lia|auto]|]. split; [lia|auto].
        + exists y, l. cbn [ivs lists]. rewrite H7, (Go y I D). auto. }
    assert (U' : unshared (DM v m)).
    { split.
      - intros y I. cbn [ivs lists] in *. apply H7 in I. destruct I as [I|[A ->]].
        + destruct (Oo y I) as [->|D].
          * rewrite Gm. discriminate.
          * rewrite (Go y I D). apply V, I.
        + cbn [ival]. rewrite (Gh A). discriminate.
      - intros y z Iy Iz Q. cbn [ivs] in *. apply H7 in Iy, Iz.
        destruct Iy as [I|[A ->]], Iz as [I'|[A' ->]]; cbn [ival] in Q; try reflexivity.
        + apply J; auto.
        + apply Nat.eqb_eq in Q. rewrite (Fh A' y I) in Q. discriminate.
        + symmetry in Q. apply Nat.eqb_eq in Q. rewrite (Fh A z I') in Q. discriminate. }
    destruct (Z.ltb_spec U (ihi x + 1)) as [L|L].
    + split; [exact U'|]. intros i n. rewrite HV. unfold goalF. rewrite Hs, in_dunion.
      specialize (Ps i n). bitcases i x B U.
    + split; [exact U'|]. cbn [rleft]. split.
      * intros y I. cbn [ivs] in I. apply H7 in I. destruct I as [I|[A ->]]; [|cbn [ilo ihi]; lia].
        destruct (Oo y I) as [->|D]; lia.
      * intros i n. unfold goalF. rewrite HV, Hs, in_dunion. specialize (Ps i n).
        bitcases i x B U.
  - (* left overlap *)
    assert (Fx := Fr h H4 x Ix).
    assert (HV : forall i n, has (DM v m) i n <->
       (B <= i <= ihi x /\ In n l) \/ (ilo x <= i < B /\ In n lx) \/ hasO d x i n).
    { intros i n. split.
      - intros (y & l1 & I & C & G & N). unfold inside in C. cbn [ivs lists] in *.
        rewrite H7 in G. apply H8 in I. destruct I as [->|[->|[I D]]]; cbn [ilo ihi ival] in *.
        + rewrite Nat.eqb_refl in G. inversion G; subst. left. auto.
        + rewrite Fx, Gx in G. inversion G; subst. right. left. split; [lia|auto].
        + rewrite (Fr h H4 y I) in G. right. right. exists y, l1. unfold inside. auto.
      - intros [[C N]|[(C & N)|(y & l1 & I & D & C & G & N)]].
        + exists (IV B (ihi x) h), l. cbn [ivs lists ival]. rewrite H7, H8, Nat.eqb_refl.
          unfold inside; cbn [ilo ihi]. auto.
        + exists (IV (ilo x) (B - 1) (ival x)), lx. cbn [ivs lists ival]. rewrite H7, H8, Fx.
          unfold inside; cbn [ilo ihi]. split; [auto|]. split; [lia|auto].
        + exists y, l1. cbn [ivs lists]. rewrite H7, H8, (Fr h H4 y I). auto 10. }
    split; [split|split].
    + intros y I. cbn [ivs lists] in *. rewrite H7. apply H8 in I.
      destruct I as [->|[->|[I D]]]; cbn [ival].
      * rewrite Nat.eqb_refl. discriminate.
      * rewrite Fx. apply V, Ix.
      * rewrite (Fr h H4 y I). apply V, I.
    + intros y z Iy Iz Q. cbn [ivs] in *. apply H8 in Iy, Iz. apply Nat.eqb_neq in Fx.
      destruct Iy as [->|[->|[I D]]], Iz as [->|[->|[I' D']]];
        cbn [ival] in Q; try reflexivity; try congruence.
      * symmetry in Q. apply Nat.eqb_eq in Q. rewrite (Fr h H4 z I') in Q. discriminate.
      * symmetry in Q. apply Nat.eqb_eq in Q. rewrite (Jo z I' D') in Q. discriminate.
      * apply Nat.eqb_eq in Q. rewrite (Fr h H4 y I) in Q. discriminate.
      * apply Nat.eqb_eq in Q. rewrite (Jo y I D) in Q. discriminate.
      * apply J; auto.
    + intros y I. cbn [ivs rleft] in *. apply H8 in I.
      destruct I as [->|[->|[I D]]]; cbn [ilo ihi]; lia.
    + intros i n. cbn [rleft]. unfold goalF. rewrite HV, Hs. specialize (Ps i n).
      destruct merge.
      * destruct (H5 eq_refl) as (l0 & G0 & ->). assert (l0 = lx) by congruence. subst l0.
        rewrite in_dunion. bitcases i x B U.
      * rewrite (H6 eq_refl). bitcases i x B U.
  - (* right overlap, replacing *)
    assert (Fx := Fr h H5 x Ix).
    assert (HV : forall i n, has (DM v m) i n <->
       (B <= i <= U /\ In n dl) \/ (U < i <= ihi x /\ In n lx) \/ hasO d x i n).
    { intros i n. split.
      - intros (y & l1 & I & C & G & N). unfold inside in C. cbn [ivs lists] in *.
        rewrite H6 in G. apply H7 in I. destruct I as [->|[->|[I D]]]; cbn [ilo ihi ival] in *.
        + rewrite Nat.eqb_refl in G. inversion G; subst. left. auto.
        + rewrite Fx, Gx in G. inversion G; subst. right. left. split; [lia|auto].
        + rewrite (Fr h H5 y I) in G. right. right. exists y, l1. unfold inside. auto.
      - intros [[C N]|[(C & N)|(y & l1 & I & D & C & G & N)]].
        + exists (IV B U h), dl. cbn [ivs lists ival]. rewrite H6, H7, Nat.eqb_refl.
          unfold inside; cbn [ilo ihi]. auto.
        + exists (IV (U + 1) (ihi x) (ival x)), lx. cbn [ivs lists ival]. rewrite H6, H7, Fx.
          unfold inside; cbn [ilo ihi]. split; [auto|]. split; [lia|auto].
        + exists y, l1. cbn [ivs lists]. rewrite H6, H7, (Fr h H5 y I). auto 10. }
    split; [split|].
    + intros y I. cbn [ivs lists] in *. rewrite H6. apply H7 in I.
      destruct I as [->|[->|[I D]]]; cbn [ival].
      * rewrite Nat.eqb_refl. discriminate.
      * rewrite Fx. apply V, Ix.
      * rewrite (Fr h H5 y I). apply V, I.
    + intros y z Iy Iz Q. cbn [ivs] in *. apply H7 in Iy, Iz. apply Nat.eqb_neq in Fx.
      destruct Iy as [->|[->|[I D]]], Iz as [->|[->|[I' D']]];
        cbn [ival] in Q; try reflexivity; try congruence.
      * symmetry in Q. apply Nat.eqb_eq in Q. rewrite (Fr h H5 z I') in Q. discriminate.
      * symmetry in Q. apply Nat.eqb_eq in Q. rewrite (Jo z I' D') in Q. discriminate.
      * apply Nat.eqb_eq in Q. rewrite (Fr h H5 y I) in Q. discriminate.
      * apply Nat.eqb_eq in Q. rewrite (Jo y I D) in Q. discriminate.
      * apply J; auto.
    + intros i n. unfold goalF. rewrite HV, Hs. specialize (Ps i n).
      bitcases i x B U.
  - (* right overlap, merging *)
    assert (G0 : l = lx).
    { destruct H8 as [G0|[G0 _]]; congruence. }
    subst l.
    assert (Fx := Fr h H5 x Ix). assert (Fx2 := Fr h2 H6 x Ix).
    assert (N12 := proj2 (Nat.eqb_neq _ _) H7).
    assert (HV : forall i n, has (DM v m) i n <->
       (B <= i < ilo x /\ In n dl) \/ (ilo x <= i <= U /\ In n (dunion lx dl)) \/
       (U < i <= ihi x /\ In n lx) \/ hasO d x i n).
    { intros i n. split.
      - intros (y & l1 & I & C & G & N). unfold inside in C. cbn [ivs lists] in *.
        rewrite H9 in G. apply H10 in I.
        destruct I as [->|[->|[->|[I D]]]]; cbn [ilo ihi ival] in *.
        + rewrite N12, Nat.eqb_refl in G. inversion G; subst. left. split; [lia|auto].
        + rewrite Nat.eqb_refl in G. inversion G; subst. right. left. split; [lia|auto].
        + rewrite Fx, Fx2, Gx in G. inversion G; subst. right. right. left. split; [lia|auto].
        + rewrite (Fr h H5 y I), (Fr h2 H6 y I) in G. right. right. right.
          exists y, l1. unfold inside. auto.
      - intros [[C N]|[[C N]|[(C & N)|(y & l1 & I & D & C & G & N)]]].
        + exists (IV B (ilo x - 1) h), dl. cbn [ivs lists ival].
          rewrite H9, H10, N12, Nat.eqb_refl.
          unfold inside; cbn [ilo ihi]. split; [auto|]. split; [lia|auto].
        + exists (IV (ilo x) U h2), (dunion lx dl). cbn [ivs lists ival].
          rewrite H9, H10, Nat.eqb_refl. unfold inside; cbn [ilo ihi]. auto.
        + exists (IV (U + 1) (ihi x) (ival x)), lx. cbn [ivs lists ival].
          rewrite H9, H10, Fx, Fx2.
          unfold inside; cbn [ilo ihi]. split; [auto|]. split; [lia|auto].
        + exists y, l1. cbn [ivs lists]. rewrite H9, H10, (Fr h H5 y I), (Fr h2 H6 y I). auto 10. }
    split; [split|].
    + intros y I. cbn [ivs lists] in *. rewrite H9. apply H10 in I.
      destruct I as [->|[->|[->|[I D]]]]; cbn [ival].
      * rewrite N12, Nat.eqb_refl. discriminate.
      * rewrite Nat.eqb_refl. discriminate.
      * rewrite Fx, Fx2. apply V, Ix.
      * rewrite (Fr h H5 y I), (Fr h2 H6 y I). apply V, I.
    + intros y z Iy Iz Q. cbn [ivs] in *. apply H10 in Iy, Iz.
      apply Nat.eqb_neq in Fx, Fx2.
      assert (Ny : forall y, In y (ivs d) -> (ihi x < ilo y \/ ihi y < ilo x) ->
                ival y <> h /\ ival y <> h2 /\ ival y <> ival x).
      { intros w Iw Dw. repeat split; apply Nat.eqb_neq; auto. }
      destruct Iy as [->|[->|[->|[I D]]]], Iz as [->|[->|[->|[I' D']]]];
        cbn [ival] in Q; try reflexivity; try congruence;
        try (destruct (Ny z I' D') as (q1 & q2 & q3); congruence);
        try (destruct (Ny y I D) as (q1 & q2 & q3); congruence).
      apply J; auto.
    + intros i n. unfold goalF. rewrite HV, Hs, in_dunion. specialize (Ps i n).
      bitcases i x B U.
Qed.

Lemma loop_exact merge dl U : forall fuel d B,
  dok d -> unshared d -> noinner d B U -> B <= U -> (length (ivfind B U (ivs d)) < fuel)%nat ->
  exists d', add_loop fuel merge dl d (Range B U) (dm_find d (Range B U)) = DOk d' /\
    dok d' /\ unshared d' /\ forall i n, has d' i n <-> goalF merge dl d B U i n.
Proof.
  induction fuel as [|f IH]; intros d B K Us NI L Fu; [lia|]. cbn [add_loop].
  destruct (dm_find d (Range B U)) as [|x rest] eqn:F.
  - rewrite dm_find_range in F by auto. destruct Us as [V J].
    destruct (final_insert dl d B U K L F) as (m & h & E & W' & Km & Gh & Gm).
    pose proof (fun y I => fresh_entry d h y V Gh I) as Fr.
    eexists. split; [exact E|]. split; [split; auto|]. split; [split|].
    + intros y I. cbn [ivs lists] in *. rewrite Gm. apply in_ins in I.
      destruct I as [->|I]; cbn [ival].
      * rewrite Nat.eqb_refl. discriminate.
      * rewrite (Fr y I). apply V, I.
    + intros y z Iy Iz Q. cbn [ivs] in *. apply in_ins in Iy, Iz.
      destruct Iy as [->|I], Iz as [->|I']; cbn [ival] in Q; try reflexivity.
      * symmetry in Q. apply Nat.eqb_eq in Q. rewrite (Fr z I') in Q. discriminate.
      * apply Nat.eqb_eq in Q. rewrite (Fr y I) in Q. discriminate.
      * apply J; auto.
    + pose proof (ivfind_none B U (ivs d) F) as NF.
      assert (NH : forall i n, has d i n -> ~ (B <= i <= U)).
      { intros i n (y & l & I & C & _) C'. unfold inside in C. destruct (NF y I); lia. }
      intros i n. unfold goalF. specialize (NH i n).
      assert (HV : has (DM (ins (IV B U h) (ivs d)) m) i n <->
                   (B <= i <= U /\ In n dl) \/ has d i n).
      { split.
        - intros (y & l & I & C & G & N). cbn [ivs lists] in *. rewrite Gm in G.
          apply in_ins in I. destruct I as [->|I]; cbn [ival] in G.
          + rewrite Nat.eqb_refl in G. inversion G; subst. left. auto.
          + rewrite (Fr y I) in G. right. exists y, l. auto.
        - intros [[C N]|(y & l & I & C & G & N)].
          + exists (IV B U h), dl. cbn [ivs lists ival]. rewrite Gm, in_ins, Nat.eqb_refl. auto.
          + exists y, l. cbn [ivs lists]. rewrite Gm, in_ins, (Fr y I). auto. }
      rewrite HV. destruct (Z_le_dec B i), (Z_le_dec i U); intuition lia.
  - destruct (body_effect merge dl d B U x rest K L F) as [[E G]|(o & E & Ef)].
    + exfalso. rewrite dm_find_range in F by auto.
      destruct (find_first B U x rest (ivs d) (proj1 K) F) as (Ix & _).
      apply (proj1 Us x Ix G).
    + rewrite E. cbn [dbind]. rewrite dm_find_range in F by auto.
      destruct (find_first B U x rest (ivs d) (proj1 K) F) as (Ix & X1 & X2 & X3).
      pose proof (effect_cov merge dl d B U x o K L Ix X1 X2 Ef) as C.
      pose proof (effect_exact merge dl d B U x o K Us NI L Ix X1 X2 X3 Ef) as M.
      destruct o as [d'|d' b'|]; [|destruct C as (K' & B' & -> & LB & C & Sh)|contradiction].
      * exists d'. destruct C as [K' C]. split; [reflexivity|]. split; [exact K'|exact M].
      * destruct M as (U' & NI' & M). cbn [rleft] in *.
        destruct (IH d' B' K' U' NI') as (d2 & Q & K2 & U2 & N2); [lia|lia|].
        exists d2. split; [exact Q|]. split; [exact K2|]. split; [exact U2|].
        intros i n. rewrite N2. apply M.
Qed.

Lemma addDrivers_exact d b dl merge : dok d -> unshared d -> noinner d (lower b) (upper b) ->
  exists d', addDrivers d b dl merge = DOk d' /\ dok d' /\ unshared d' /\
    (forall i, covers (ivs d') i <-> covers (ivs d) i \/ lower b <= i <= upper b) /\
    forall i n, has d' i n <-> goalF merge dl d (lower b) (upper b) i n.
Proof.
  intros K Us NI.
  assert (X : exists d', addDrivers d b dl merge = DOk d' /\ dok d' /\ unshared d' /\
    forall i n, has d' i n <-> goalF merge dl d (lower b) (upper b) i n).
  { unfold addDrivers. cbv zeta. apply loop_exact; auto; [apply lower_upper|].
    pose proof (find_length (lower b) (upper b) (ivs d)). lia. }
  destruct X as (d' & E & K' & U' & H). exists d'. split; [exact E|]. split; [exact K'|].
  split; [exact U'|]. split; [|exact H].
  destruct (addDrivers_cov d b dl merge K) as [Q|(d2 & Q & _ & C)]; [congruence|].
  rewrite E in Q. inversion Q; subst. exact C.
Qed.

(** ** Entries stay within the range of one call *)
Definition within (R : list (Z * Z)) (d : dmap) : Prop :=
  forall y, In y (ivs d) -> exists r, In r R /\ fst r <= ilo y /\ ihi y <= snd r.

Lemma effect_within merge dl d B U x o R : B <= U -> ilo x <= U -> B <= ihi x ->
  In x (ivs d) -> within R d ->
  (exists r, In r R /\ fst r <= B /\ U <= snd r) ->
  effect merge dl d B U x o ->
  match o with
  | Return d' => within R d'
  | Again d' _ => within R d'
  | Skip => True
  end.
Proof.
  intros LU Z1 Z2 Ix Wi (r & Ir & L1 & L2) E. destruct (Wi x Ix) as (rx & Irx & X1 & X2).
  destruct E; subst; try (intros y I; cbn [ivs] in I).
  - apply Wi, I.
  - apply H8 in I. destruct I as [->|[[A ->]|[[A ->]|[I D]]]]; cbn [ilo ihi]; auto.
    + exists r. auto.
    + exists rx. split; [auto|lia].
    + exists rx. split; [auto|lia].
  - apply H5 in I. apply Wi, I.
  - assert (Q : within R (DM v m)).
    { intros y I. cbn [ivs] in I. apply H7 in I. destruct I as [I|[A ->]]; [apply Wi, I|].
      cbn [ilo ihi]. exists r. split; [auto|lia]. }
    destruct (U <? ihi x + 1); exact Q.
  - apply H8 in I. destruct I as [->|[->|[I D]]]; cbn [ilo ihi]; auto.
    + exists r. split; [auto|lia].
    + exists rx. split; [auto|lia].
  - apply H7 in I. destruct I as [->|[->|[I D]]]; cbn [ilo ihi]; auto.
    + exists r. auto.
    + exists rx. split; [auto|lia].
  - apply H10 in I. destruct I as [->|[->|[->|[I D]]]]; cbn [ilo ihi]; auto.
    + exists r. split; [auto|lia].
    + exists r. split; [auto|lia].
    + exists rx. split; [auto|lia].
Qed.

Lemma loop_within merge dl U R : forall fuel d B d',
  dok d -> B <= U -> within R d -> (exists r, In r R /\ fst r <= B /\ U <= snd r) ->
  add_loop fuel merge dl d (Range B U) (dm_find d (Range B U)) = DOk d' -> within R d'.
Proof.
  induction fuel as [|f IH]; intros d B d' K L Wi Hr E; [discriminate|]. cbn [add_loop] in E.
  destruct (dm_find d (Range B U)) as [|x rest] eqn:F.
  - rewrite dm_find_range in F by auto.
    destruct (final_insert dl d B U K L F) as (m & h & E' & W' & _).
    rewrite E' in E. inversion E; subst. intros y I. cbn [ivs] in I. apply in_ins in I.
    destruct I as [->|I]; [|apply Wi, I]. cbn [ilo ihi]. exact Hr.
  - destruct (body_effect merge dl d B U x rest K L F) as [[E' G]|(o & E' & Ef)].
    + rewrite E' in E. discriminate.
    + rewrite E' in E. cbn [dbind] in E. rewrite dm_find_range in F by auto.
      destruct (find_first B U x rest (ivs d) (proj1 K) F) as (Ix & X1 & X2 & X3).
      pose proof (effect_cov merge dl d B U x o K L Ix X1 X2 Ef) as C.
      pose proof (effect_within merge dl d B U x o R L X1 X2 Ix Wi Hr Ef) as Q.
      destruct o as [d1|d1 b1|]; [|destruct C as (K' & B' & -> & LB & C & Sh)|contradiction].
      * inversion E; subst. exact Q.
      * cbn [rleft] in *. refine (IH d1 B' d' K' _ Q _ E); [lia|].
        destruct Hr as (r & I & A1 & A2). exists r. split; [auto|lia].
Qed.

Lemma addDrivers_within d b dl merge d' R : dok d -> within R d ->
  addDrivers d b dl merge = DOk d' -> within ((lower b, upper b) :: R) d'.
Proof.
  intros K Wi E. unfold addDrivers in E. cbv zeta in E.
  refine (loop_within merge dl (upper b) _ _ d (lower b) d' K _ _ _ E).
  - apply lower_upper.
  - intros y I. destruct (Wi y I) as (r & J & A). exists r. split; [now right|exact A].
  - exists (lower b, upper b). cbn. split; [auto|lia].
Qed.

(** No call lies strictly inside, at both ends, the range of an earlier call. *)
Fixpoint no_inner (R : list (Z * Z)) (h : list call) : Prop :=
  match h with
  | [] => True
  | (b, _, _) :: r =>
      (forall q, In q R -> ~ (fst q < lower b /\ upper b < snd q)) /\
      no_inner ((lower b, upper b) :: R) r
  end.

Lemma no_inner_spec : forall h R,
  (forall q, In q R -> forall c, In c h ->
     ~ (fst q < lower (fst (fst c)) /\ upper (fst (fst c)) < snd q)) ->
  (forall h1 c1 h2 c2 h3, h = h1 ++ c1 :: h2 ++ c2 :: h3 ->
     ~ (lower (fst (fst c1)) < lower (fst (fst c2)) /\
        upper (fst (fst c2)) < upper (fst (fst c1)))) ->
  no_inner R h.
Proof.
  induction h as [|[[b dl] m] h IH]; intros R HR Hh; cbn [no_inner]; [exact I|]. split.
  - intros q Iq. apply (HR q Iq (b, dl, m)). now left.
  - apply IH.
    + intros q [<-|Iq] c Ic.
      * apply in_split in Ic. destruct Ic as (h2 & h3 & ->).
        apply (Hh [] (b, dl, m) h2 c h3). reflexivity.
      * apply HR; [exact Iq|now right].
    + intros h1 c1 h2 c2 h3 ->. apply (Hh ((b, dl, m) :: h1) c1 h2 c2 h3). reflexivity.
Qed.

Definition bit_ok (s : option (list nat)) (d : dmap) (i : Z) : Prop :=
  (s = None <-> ~ covers (ivs d) i) /\
  forall n, has d i n <-> exists l, s = Some l /\ In n l.

Lemma run_exact : forall h d R s, dok d -> unshared d -> within R d -> no_inner R h ->
  (forall i, bit_ok (s i) d i) ->
  exists d', run_calls d h = DOk d' /\ dok d' /\ unshared d' /\
    forall i, bit_ok (fold_left (bit_step i) h (s i)) d' i.
Proof.
  induction h as [|[[b dl] m] h IH]; intros d R s K Us Wi NI H; cbn [run_calls].
  - exists d. cbn [fold_left]. auto.
  - destruct NI as [N1 N2].
    assert (NJ : noinner d (lower b) (upper b)).
    { intros y I C. destruct (Wi y I) as (r & J & A). apply (N1 r J). lia. }
    destruct (addDrivers_exact d b dl m K Us NJ) as (d1 & E & K1 & U1 & C1 & F1).
    rewrite E. cbn [dbind].
    destruct (IH d1 _ (fun i => bit_step i (s i) (b, dl, m)) K1 U1
                 (addDrivers_within d b dl m d1 R K Wi E) N2) as (d2 & Q & K2 & U2 & B2).
    + intros i. destruct (H i) as [H1 H2]. unfold bit_ok. rewrite C1. unfold bit_step.
      change (Z.min (rleft b) (rright b)) with (lower b).
      change (Z.max (rleft b) (rright b)) with (upper b).
      destruct (Z.leb_spec (lower b) i), (Z.leb_spec i (upper b)); cbn [andb].
      2-4: split; [rewrite H1; split; [intros A [B|B]; [auto|lia]|intros A B; apply A; auto]|].
      2-4: intros n; rewrite F1, <- H2; unfold goalF; split; [intros [[A _]|[_ A]]; [lia|exact A]|].
      2-4: intros A; right; split; [lia|exact A].
      split.
      * split; [destruct (s i); discriminate|]. intros A. exfalso. apply A. right. lia.
      * intros n. rewrite F1. unfold goalF. rewrite H2. destruct (s i) as [old|].
        -- destruct m.
           ++ split.
              ** intros [[_ [A|[_ (l & B & A)]]]|[A _]]; [| |lia].
                 --- eexists. split; [reflexivity|]. apply in_or_app. auto.
                 --- eexists. split; [reflexivity|]. apply in_or_app. inversion B; subst. auto.
              ** intros (l & B & A). inversion B; subst. apply in_app_or in A. left.
                 split; [lia|]. destruct A as [A|A]; [|auto]. right. split; [auto|]. eauto.
           ++ split.
              ** intros [[_ [A|[Q _]]]|[A _]]; [|discriminate|lia]. eauto.
              ** intros (l & B & A). inversion B; subst. left. split; [lia|auto].
        -- split.
           ++ intros [[_ [A|[_ (l & B & A)]]]|[A _]]; [|discriminate|lia]. eauto.
           ++ intros (l & B & A). inversion B; subst. left. split; [lia|auto].
    + exists d2. cbn [fold_left]. auto.
Qed.

Lemma run_exact_empty h : no_inner [] h ->
  exists d, run_calls dm_empty h = DOk d /\ dok d /\ unshared d /\
    forall i, bit_ok (bit_drivers h i) d i.
Proof.
  intros NI. apply (run_exact h dm_empty [] (fun _ => None)); auto.
  - apply dok_empty.
  - split; intros x; cbn; tauto.
  - intros y [].
  - intros i. split.
    + split; [|auto]. intros _ (x & [] & _).
    + intros n. split; [intros (x & l & [] & _)|intros (l & Q & _); discriminate].
Qed.

(** ** Queries *)
Lemma each_interval_spec d : allvalid d -> forall its, (forall x, In x its -> In x (ivs d)) ->
  exists out, each_interval d its = DOk out /\
    forall r l, In (r, l) out <->
      exists x, In x its /\ r = Range (ilo x) (ihi x) /\ get (lists d) (ival x) = Some l.
Proof.
  intros V. induction its as [|x its IH]; intros Hi; cbn [each_interval].
  - exists []. split; [reflexivity|]. intros r l. split; [intros []|intros (x & [] & _)].
  - destruct (allvalid_some d x V) as (lx & G); [apply Hi; now left|].
    unfold getDriverList. rewrite G. cbn [dbind].
    destruct IH as (out & E & S); [intros y I; apply Hi; now right|]. rewrite E. cbn [dbind].
    eexists. split; [reflexivity|]. intros r l. cbn [In]. rewrite S. split.
    + intros [Q|(y & I & A)]; [inversion Q; subst; exists x; auto|exists y; auto].
    + intros (y & [<-|I] & -> & A); [left; congruence|right; exists y; auto].
Qed.

Lemma collect_spec d b : allvalid d -> forall its acc, (forall x, In x its -> In x (ivs d)) ->
  exists out, collect_drivers d b its acc = DOk out /\
    forall n, In n out <-> In n acc \/
      exists x l, In x its /\ (contains (Range (ilo x) (ihi x)) b = true \/
                               contains b (Range (ilo x) (ihi x)) = true) /\
                  get (lists d) (ival x) = Some l /\ In n l.
Proof.
  intros V. induction its as [|x its IH]; intros acc Hi; cbn [collect_drivers].
  - exists acc. split; [reflexivity|]. intros n. split; [auto|].
    intros [A|(x & l & [] & _)]. exact A.
  - destruct (allvalid_some d x V) as (lx & G); [apply Hi; now left|].
    assert (Hi' : forall y, In y its -> In y (ivs d)) by (intros y I; apply Hi; now right).
    destruct (contains (Range (ilo x) (ihi x)) b || contains b (Range (ilo x) (ihi x))) eqn:C.
    + unfold getDriverList. rewrite G. cbn [dbind].
      destruct (IH (dunion acc lx) Hi') as (out & E & S). exists out. split; [exact E|].
      intros n. rewrite S, in_dunion. apply orb_true_iff in C. split.
      * intros [[A|A]|(y & l & I & A)]; [auto| |].
        -- right. exists x, lx. cbn [In]. auto.
        -- right. exists y, l. cbn [In]. tauto.
      * intros [A|(y & l & [<-|I] & A & Gy & N)]; [auto| |].
        -- left. right. congruence.
        -- right. exists y, l. auto.
    + destruct (IH acc Hi') as (out & E & S). exists out. split; [exact E|].
      intros n. rewrite S. apply orb_false_iff in C. split.
      * intros [A|(y & l & I & A)]; [auto|]. right. exists y, l. cbn [In]. tauto.
      * intros [A|(y & l & [<-|I] & A & Gy & N)]; [auto| |].
        -- destruct A, C; congruence.
        -- right. exists y, l. auto.
Qed.
