(** Proofs about driver maps. *)
From Coq Require Import Sorted.
From Verif Require Import Base M_Range M_Interval M_Heap M_Drivers S_Interval S_Drivers
  P_Interval P_Heap.
Local Open Scope Z_scope.

(** * Sets of drivers *)
Lemma in_dunion n : forall new old, In n (dunion old new) <-> In n old \/ In n new.
Proof.
  unfold dunion. induction new as [|m new IH]; intros old; cbn [fold_left].
  - cbn. tauto.
  - rewrite IH. destruct (existsb (Nat.eqb m) old) eqn:E.
    + apply existsb_exists in E. destruct E as (m' & I & Q). apply Nat.eqb_eq in Q. subst m'.
      cbn. split; [tauto|]. intros [H|[<-|H]]; auto.
    + rewrite in_app_iff. cbn. tauto.
Qed.

(** * Entries and bits *)
Definition At (m : list (iv nat)) (i : Z) (k : nat) : Prop :=
  exists x, In x m /\ inside x i /\ ival x = k.

Lemma At_covers m i : covers m i <-> exists k, At m i k.
Proof.
  split.
  - intros (x & I & C). exists (ival x), x. auto.
  - intros (k & x & I & C & _). exists x. auto.
Qed.

Lemma At_ins x m i k : At (ins x m) i k <-> (inside x i /\ k = ival x) \/ At m i k.
Proof.
  split.
  - intros (y & I & C & E). apply in_ins in I. destruct I as [->|I]; [left; auto|].
    right. exists y. auto.
  - intros [[C ->]|(y & I & C & E)]; [exists x|exists y]; rewrite in_ins; auto.
Qed.

Lemma wf_two (m : list (iv nat)) x y i :
  wf m -> In x m -> In y m -> inside x i -> inside y i -> x = y.
Proof.
  induction m as [|z m IH]; intros W Ix Iy Cx Cy; [easy|].
  apply wf_cons in W. destruct W as (Wz & Wb & W). unfold inside in *.
  destruct Ix as [<-|Ix], Iy as [<-|Iy]; auto.
  - specialize (Wb y Iy). lia.
  - specialize (Wb x Ix). lia.
Qed.

Lemma At_erase x m i k : wf m -> In x m ->
  (At (iverase x m) i k <-> At m i k /\ ~ inside x i).
Proof.
  intros W Ix. split.
  - intros (y & I & C & E). apply in_erase in I; auto. destruct I as [I D].
    split; [exists y; auto|]. unfold inside in *. lia.
  - intros [(y & I & C & E) N]. exists y. split; [|auto]. apply in_erase; auto.
    split; [exact I|]. pose proof (proj1 W x Ix). pose proof (proj1 W y I).
    destruct (Z_lt_le_dec (ihi x) (ilo y)) as [|L1]; [auto|].
    destruct (Z_lt_le_dec (ihi y) (ilo x)) as [|L2]; [auto|]. exfalso.
    assert (x = y); [|subst; auto].
    apply (wf_two m x y (Z.max (ilo x) (ilo y))); auto; unfold inside; lia.
Qed.

Lemma At_fun m i k k' : wf m -> At m i k -> At m i k' -> k = k'.
Proof.
  intros W (x & I & C & <-) (y & J & C' & <-). now rewrite (wf_two m x y i W I J C C').
Qed.

(** * The manager through the driver map *)
Lemma addDriverList_spec d l : mok (lists d) ->
  exists m h, addDriverList d l = DOk (DM (ivs d) m, h) /\ mok m /\ get (lists d) h = None /\
    forall k, get m k = if Nat.eqb k h then Some l else get (lists d) k.
Proof.
  intros K. destruct (allocate_spec (lists d) l K) as (m & h & E & A & B & C).
  exists m, h. unfold addDriverList. rewrite E. auto.
Qed.

Lemma setDriverList_spec d h y l : mok (lists d) -> get (lists d) h = Some y ->
  exists m, setDriverList d h l = DOk (DM (ivs d) m) /\ mok m /\
    forall k, get m k = if Nat.eqb k h then Some l else get (lists d) k.
Proof.
  intros K G. destruct (put_spec (lists d) h y l K G) as (m & E & A & B).
  exists m. unfold setDriverList. rewrite E. auto.
Qed.

Lemma eraseHandle_spec d h y : mok (lists d) -> get (lists d) h = Some y ->
  exists m, dm_erase_handle d h = DOk (DM (ivs d) m) /\ mok m /\
    forall k, get m k = if Nat.eqb k h then None else get (lists d) k.
Proof.
  intros K G. destruct (erase_spec (lists d) h y K G) as (m & E & A & B).
  exists m. unfold dm_erase_handle. rewrite E. auto.
Qed.

Definition dok (d : dmap) : Prop := wf (ivs d) /\ mok (lists d).

(** * One iteration, by position of the hit *)

(** The abstract effect of one iteration on entries and lists.  [B], [U]: current
    bounds; [x]: the hit; [d]: before. *)
Inductive effect (merge : bool) (dl : dlist) (d : dmap) (B U : Z) (x : iv nat) : outcome -> Prop :=
| EffEq : forall m l,
    ilo x = B -> ihi x = U -> get (lists d) (ival x) = Some l -> mok m ->
    (forall k, get m k = if Nat.eqb k (ival x) then Some (dunion (if merge then l else []) dl)
                         else get (lists d) k) ->
    effect merge dl d B U x (Return (DM (ivs d) m))
| EffIn : forall v m h l,
    ilo x <= B -> U <= ihi x -> (ilo x < B \/ U < ihi x) ->
    wf v -> mok m -> get (lists d) h = None ->
    (merge = true -> exists l0, get (lists d) (ival x) = Some l0 /\ l = dunion l0 dl) ->
    (merge = false -> l = dl) ->
    (forall k, get m k = if Nat.eqb k h then Some l else get (lists d) k) ->
    (forall y, In y v <->
       y = IV B U h \/ (ilo x < B /\ y = IV (ilo x) (B - 1) (ival x)) \/
       (U < ihi x /\ y = IV (U + 1) (ihi x) (ival x)) \/
       (In y (ivs d) /\ (ihi x < ilo y \/ ihi y < ilo x))) ->
    effect merge dl d B U x (Return (DM v m))
| EffDrop : forall v m,
    merge = false -> B <= ilo x -> ihi x <= U -> wf v -> mok m ->
    (forall k, get m k = if Nat.eqb k (ival x) then None else get (lists d) k) ->
    (forall y, In y v <-> In y (ivs d) /\ (ihi x < ilo y \/ ihi y < ilo x)) ->
    length (ivs d) = S (length v) ->
    effect merge dl d B U x (Again (DM v m) (Range B U))
| EffOver : forall v m h l o,
    merge = true -> B <= ilo x -> ihi x <= U -> wf v -> mok m ->
    get (lists d) (ival x) = Some l ->
    (B < ilo x -> get (lists d) h = None) ->
    (forall k, get m k = if Nat.eqb k (ival x) then Some (dunion l dl)
                         else if Nat.eqb k h then (if B <? ilo x then Some dl else get (lists d) k)
                         else get (lists d) k) ->
    (forall y, In y v <-> In y (ivs d) \/ (B < ilo x /\ y = IV B (ilo x - 1) h)) ->
    o = (if U <? ihi x + 1 then Return (DM v m) else Again (DM v m) (Range (ihi x + 1) U)) ->
    effect merge dl d B U x o
| EffLeft : forall v m h l,
    ilo x < B -> B <= ihi x -> ihi x < U -> wf v -> mok m -> get (lists d) h = None ->
    (merge = true -> exists l0, get (lists d) (ival x) = Some l0 /\ l = dunion l0 dl) ->
    (merge = false -> l = dl) ->
    (forall k, get m k = if Nat.eqb k h then Some l else get (lists d) k) ->
    (forall y, In y v <->
       y = IV B (ihi x) h \/ y = IV (ilo x) (B - 1) (ival x) \/
       (In y (ivs d) /\ (ihi x < ilo y \/ ihi y < ilo x))) ->
    effect merge dl d B U x (Again (DM v m) (Range (ihi x + 1) U))
| EffRight : forall v m h,
    merge = false -> B < ilo x -> ilo x <= U -> U < ihi x -> wf v -> mok m ->
    get (lists d) h = None ->
    (forall k, get m k = if Nat.eqb k h then Some dl else get (lists d) k) ->
    (forall y, In y v <->
       y = IV B U h \/ y = IV (U + 1) (ihi x) (ival x) \/
       (In y (ivs d) /\ (ihi x < ilo y \/ ihi y < ilo x))) ->
    effect merge dl d B U x (Return (DM v m))
| EffRightM : forall v m h h2 l,
    merge = true -> B < ilo x -> ilo x <= U -> U < ihi x -> wf v -> mok m ->
    get (lists d) h = None -> get (lists d) h2 = None -> h <> h2 ->
    (get (lists d) (ival x) = Some l \/
     (get (lists d) (ival x) = None /\ ival x = h /\ l = dl)) ->
    (forall k, get m k = if Nat.eqb k h2 then Some (dunion l dl)
                         else if Nat.eqb k h then Some dl else get (lists d) k) ->
    (forall y, In y v <->
       y = IV B (ilo x - 1) h \/ y = IV (ilo x) U h2 \/ y = IV (U + 1) (ihi x) (ival x) \/
       (In y (ivs d) /\ (ihi x < ilo y \/ ihi y < ilo x))) ->
    effect merge dl d B U x (Return (DM v m)).

Lemma toPair_le a b (h : nat) : a <= b ->
  IV (fst (toPair (Range a b))) (snd (toPair (Range a b))) h = IV a b h.
Proof. intros H. unfold toPair, lower, upper; cbn. f_equal; lia. Qed.

Lemma iverase_length (x : iv nat) m : In x m -> length m = S (length (iverase x m)).
Proof.
  unfold iverase. induction m as [|z m IH]; intros I; [easy|]. cbn [remove_first].
  destruct (same_bounds x z) eqn:E; [reflexivity|].
  destruct I as [<-|I]; [now rewrite same_bounds_refl in E|].
  cbn [length]. now rewrite <- (IH I).
Qed.

Ltac bdec :=
  repeat match goal with
  | H : (_ && _) = true |- _ => apply andb_prop in H; destruct H
  | H : (_ && _) = false |- _ => apply andb_false_iff in H
  | H : (_ <=? _) = true |- _ => apply Z.leb_le in H
  | H : (_ <=? _) = false |- _ => apply Z.leb_gt in H
  | H : (_ <? _) = true |- _ => apply Z.ltb_lt in H
  | H : (_ <? _) = false |- _ => apply Z.ltb_ge in H
  | H : (_ =? _) = true |- _ => apply Z.eqb_eq in H
  | H : (_ =? _) = false |- _ => apply Z.eqb_neq in H
  end.

Lemma body_effect merge dl d B U x rest :
  dok d -> B <= U -> dm_find d (Range B U) = x :: rest ->
  (body merge dl d (Range B U) x = DErr EHandle /\ get (lists d) (ival x) = None) \/
  exists o, body merge dl d (Range B U) x = DOk o /\ effect merge dl d B U x o.
Proof.
  intros [W K] LU E. unfold dm_find, toPair, lower, upper in E. cbn [rleft rright fst snd] in E.
  rewrite Z.min_l, Z.max_r in E by lia.
  destruct (find_first B U x rest (ivs d) W E) as (Ix & X1 & X2 & X3).
  pose proof (proj1 W x Ix) as Xne.
  unfold body. cbv zeta.
  assert (LB : lower (Range B U) = B) by (unfold lower; cbn; lia).
  assert (UB : upper (Range B U) = U) by (unfold upper; cbn; lia).
  assert (LX : lower (Range (ilo x) (ihi x)) = ilo x) by (unfold lower; cbn; lia).
  assert (UX : upper (Range (ilo x) (ihi x)) = ihi x) by (unfold upper; cbn; lia).
  unfold contains. rewrite LB, UB, LX, UX.
  (* erased map *)
  assert (We : wf (iverase x (ivs d))) by (apply wf_erase; exact W).
  assert (Ie : forall y, In y (iverase x (ivs d)) <->
                 In y (ivs d) /\ (ihi x < ilo y \/ ihi y < ilo x))
    by (intros y; apply in_erase; auto).
  (* entries other than x: above it, or below the bounds *)
  assert (Xo : forall y, In y (iverase x (ivs d)) ->
                 ilo y <= ihi y /\ (ihi x < ilo y \/ (ihi y < ilo x /\ ihi y < B))).
  { intros y I. apply Ie in I. destruct I as [I D]. pose proof (proj1 W y I).
    split; [auto|]. destruct (X3 y I) as [->|[Q|Q]]; lia. }
  destruct (range_eqb (Range (ilo x) (ihi x)) (Range B U)) eqn:Q0.
  { (* equal *)
    apply range_eqb_eq in Q0. inversion Q0 as [[Qa Qb]].
    unfold getDriverList. destruct (get (lists d) (ival x)) as [l|] eqn:G; [|left; auto].
    right. cbn [dbind].
    destruct (setDriverList_spec d (ival x) l (dunion (if merge then l else []) dl) K G)
      as (m & Em & Km & Gm).
    rewrite Em. cbn [dbind]. eexists. split; [reflexivity|].
    rewrite Qa, Qb in *. eapply EffEq; eauto. }
  assert (NE : ilo x <> B \/ ihi x <> U).
  { destruct (Z.eq_dec (ilo x) B) as [e1|]; [|auto].
    destruct (Z.eq_dec (ihi x) U) as [e2|]; [|auto].
    exfalso. rewrite e1, e2 in Q0. rewrite (proj2 (range_eqb_eq _ _) eq_refl) in Q0.
    discriminate. }
  clear Q0. destruct ((ilo x <=? B) && (U <=? ihi x)) eqn:Q1.
  { (* the hit contains the bounds *)
    bdec.
    set (d1 := if ilo x <? B then dm_insert (dm_erase d x) (Range (ilo x) (B - 1)) (ival x)
               else dm_erase d x).
    assert (L1 : lists d1 = lists d) by (unfold d1; destruct (ilo x <? B); reflexivity).
    assert (V1 : wf (ivs d1) /\ forall y, In y (ivs d1) <->
               (ilo x < B /\ y = IV (ilo x) (B - 1) (ival x)) \/
               (In y (ivs d) /\ (ihi x < ilo y \/ ihi y < ilo x))).
    { unfold d1. destruct (Z.ltb_spec (ilo x) B) as [L|L].
      - unfold dm_insert. rewrite toPair_le by lia. cbn [ivs dm_erase]. split.
        + apply wf_ins; [exact We|cbn [ilo ihi]; lia|].
          intros y I. cbn [ilo ihi]. destruct (Xo y I). lia.
        + intros y. rewrite in_ins, Ie. split.
          * intros [->|I]; auto.
          * intros [[_ ->]|I]; auto.
      - cbn [ivs dm_erase]. split; [exact We|]. intros y. rewrite Ie. split; [auto|].
        intros [[C _]|I]; [lia|exact I]. }
    destruct V1 as [W1 I1].
    set (d2 := if U <? ihi x then dm_insert d1 (Range (U + 1) (ihi x)) (ival x) else d1).
    assert (L2 : lists d2 = lists d) by (unfold d2; destruct (U <? ihi x); cbn; auto).
    assert (V2 : wf (ivs d2) /\ forall y, In y (ivs d2) <->
               (ilo x < B /\ y = IV (ilo x) (B - 1) (ival x)) \/
               (U < ihi x /\ y = IV (U + 1) (ihi x) (ival x)) \/
               (In y (ivs d) /\ (ihi x < ilo y \/ ihi y < ilo x))).
    { unfold d2. destruct (Z.ltb_spec U (ihi x)) as [L|L].
      - unfold dm_insert. rewrite toPair_le by lia. cbn [ivs]. split.
        + apply wf_ins; [exact W1|cbn [ilo ihi]; lia|].
          intros y I. apply I1 in I. cbn [ilo ihi]. destruct I as [[A ->]|I].
          * cbn [ilo ihi]. lia.
          * apply Ie in I. destruct (Xo y I). lia.
        + intros y. rewrite in_ins, I1. split.
          * intros [->|[A|A]]; auto.
          * intros [A|[[_ ->]|A]]; auto.
      - split; [exact W1|]. intros y. rewrite I1. split.
        + intros [A|A]; auto.
        + intros [A|[[A _]|A]]; auto. lia. }
    destruct V2 as [W2 I2].
    assert (DU : forall y, In y (ivs d2) -> U < ilo y \/ ihi y < B).
    { intros y I. apply I2 in I. destruct I as [[A ->]|[[A ->]|I]]; cbn [ilo ihi]; lia. }
    assert (Fin : forall l, exists o,
       (do (d3, newHandle) <- addDriverList d2 l;
        DOk (Return (dm_insert d3 (Range B U) newHandle))) = DOk o /\
       ((merge = true -> exists l0, get (lists d) (ival x) = Some l0 /\ l = dunion l0 dl) ->
        (merge = false -> l = dl) -> effect merge dl d B U x o)).
    { intros l. destruct (addDriverList_spec d2 l) as (m & h & Eh & Km & Gh & Gm).
      { rewrite L2. exact K. }
      rewrite Eh. cbn [dbind]. eexists. split; [reflexivity|]. intros M1 M2.
      unfold dm_insert. rewrite toPair_le by lia. cbn [ivs lists]. rewrite L2 in *.
      eapply EffIn with (h := h) (l := l); auto; try lia.
      - apply wf_ins; [exact W2|cbn [ilo ihi]; lia|]. intros y I. cbn [ilo ihi]. apply DU. exact I.
      - intros y. rewrite in_ins, I2. tauto. }
    destruct merge.
    - unfold getDriverList. rewrite L2.
      destruct (get (lists d) (ival x)) as [l0|] eqn:G; [|left; auto].
      right. cbn [dbind]. destruct (Fin (dunion l0 dl)) as (o & Eo & Ho).
      exists o. split; [exact Eo|]. apply Ho; [intros _; exists l0; auto|discriminate].
    - right. destruct (Fin dl) as (o & Eo & Ho).
      exists o. split; [exact Eo|]. apply Ho; [discriminate|auto]. }
  destruct ((B <=? ilo x) && (ihi x <=? U)) eqn:Q2.
  { (* the bounds contain the hit *)
    bdec. destruct merge; cbn [negb].
    - unfold getDriverList. destruct (get (lists d) (ival x)) as [l|] eqn:G; [|left; auto].
      right. cbn [dbind].
      destruct (setDriverList_spec d (ival x) l (dunion l dl) K G) as (m & Em & Km & Gm).
      rewrite Em. cbn [dbind].
      destruct (Z.ltb_spec B (ilo x)) as [L|L].
      + destruct (addDriverList_spec (DM (ivs d) m) dl Km) as (m2 & h & Eh & Km2 & Gh & Gm2).
        rewrite Eh. cbn [dbind lists ivs] in *. eexists. split; [reflexivity|].
        assert (Nh : h <> ival x).
        { intros ->. rewrite Gm, Nat.eqb_refl in Gh. discriminate. }
        assert (Gh' : get (lists d) h = None).
        { rewrite Gm in Gh. destruct (Nat.eqb_spec h (ival x)); [congruence|exact Gh]. }
        unfold dm_insert. rewrite toPair_le by lia. cbn [ivs lists].
        apply EffOver with (v := ins (IV B (ilo x - 1) h) (ivs d)) (m := m2) (h := h) (l := l); auto.
        * apply wf_ins; [exact W|cbn [ilo ihi]; lia|]. intros y I. cbn [ilo ihi].
          destruct (X3 y I) as [->|[Q|Q]]; lia.
        * intros k. rewrite Gm2, Gm. destruct (Nat.eqb_spec k h) as [->|D].
          -- destruct (Nat.eqb_spec h (ival x)); [congruence|].
             rewrite (proj2 (Z.ltb_lt _ _) L). reflexivity.
          -- destruct (Nat.eqb_spec k (ival x)); reflexivity.
        * intros y. rewrite in_ins. tauto.
      + eexists. split; [reflexivity|].
        apply EffOver with (v := ivs d) (m := m) (h := ival x) (l := l); auto.
        * lia.
        * intros k. rewrite Gm. destruct (Nat.eqb_spec k (ival x)); reflexivity.
        * intros y. split; [auto|]. intros [A|[A _]]; [exact A|lia].
    - right. unfold dm_erase at 1. cbn [lists]. rewrite valid_get.
      destruct (get (lists d) (ival x)) as [l|] eqn:G.
      + destruct (eraseHandle_spec (dm_erase d x) (ival x) l K G) as (m & Em & Km & Gm).
        rewrite Em. cbn [dbind]. eexists. split; [reflexivity|].
        cbn [dm_erase ivs lists] in *.
        apply EffDrop; auto. now apply iverase_length.
      + cbn [dbind]. eexists. split; [reflexivity|]. unfold dm_erase.
        apply EffDrop; auto.
        * intros k. destruct (Nat.eqb_spec k (ival x)) as [->|]; auto.
        * now apply iverase_length. }
  destruct ((ilo x <=? B) && (B <=? ihi x)) eqn:Q3.
  { (* left overlap *)
    bdec. assert (HU : ihi x < U) by lia. assert (HB : ilo x < B) by lia.
    rewrite (proj2 (Z.ltb_lt _ _) HB). cbn [negb].
    set (d1 := dm_insert (dm_erase d x) (Range (ilo x) (B - 1)) (ival x)).
    assert (D1 : d1 = DM (ins (IV (ilo x) (B - 1) (ival x)) (iverase x (ivs d))) (lists d)).
    { unfold d1, dm_insert. rewrite toPair_le by lia. reflexivity. }
    assert (W1 : wf (ivs d1)).
    { rewrite D1. cbn [ivs]. apply wf_ins; [exact We|cbn [ilo ihi]; lia|].
      intros y I. cbn [ilo ihi]. destruct (Xo y I). lia. }
    assert (I1 : forall y, In y (ivs d1) <-> y = IV (ilo x) (B - 1) (ival x) \/
                 (In y (ivs d) /\ (ihi x < ilo y \/ ihi y < ilo x))).
    { intros y. rewrite D1. cbn [ivs]. rewrite in_ins, Ie. tauto. }
    assert (L1 : lists d1 = lists d) by (rewrite D1; reflexivity).
    assert (Fin : forall l, exists o,
       (do (d2, newHandle) <- addDriverList d1 l;
        DOk (advance (dm_insert d2 (Range B (ihi x)) newHandle) (Range B U) (ihi x))) = DOk o /\
       ((merge = true -> exists l0, get (lists d) (ival x) = Some l0 /\ l = dunion l0 dl) ->
        (merge = false -> l = dl) -> effect merge dl d B U x o)).
    { intros l. destruct (addDriverList_spec d1 l) as (m & h & Eh & Km & Gh & Gm).
      { rewrite L1. exact K. }
      rewrite Eh. cbn [dbind]. eexists. split; [reflexivity|]. intros M1 M2.
      unfold advance. cbn [rleft rright].
      rewrite (proj2 (Z.ltb_ge U (ihi x + 1))) by lia.
      unfold dm_insert at 1. rewrite toPair_le by lia. cbn [ivs lists]. rewrite L1 in *.
      apply EffLeft with (h := h) (l := l); auto.
      - apply wf_ins; [exact W1|cbn [ilo ihi]; lia|]. intros y I. cbn [ilo ihi].
        apply I1 in I. destruct I as [->|I]; cbn [ilo ihi]; [lia|].
        apply Ie in I. destruct (Xo y I). lia.
      - intros y. rewrite in_ins, I1. tauto. }
    destruct merge; cbn [negb].
    - unfold getDriverList. rewrite L1.
      destruct (get (lists d) (ival x)) as [l0|] eqn:G; [|left; auto].
      right. cbn [dbind]. destruct (Fin (dunion l0 dl)) as (o & Eo & Ho).
      exists o. split; [exact Eo|]. apply Ho; [intros _; exists l0; auto|discriminate].
    - right. destruct (Fin dl) as (o & Eo & Ho).
      exists o. split; [exact Eo|]. apply Ho; [discriminate|auto]. }
  destruct ((ilo x <=? U) && (U <=? ihi x)) eqn:Q4.
  { (* right overlap *)
    bdec. assert (HB : B < ilo x) by lia. assert (HU : U < ihi x) by lia.
    rewrite (proj2 (Z.ltb_lt _ _) HU). cbn [negb].
    destruct (addDriverList_spec (dm_erase d x) dl K) as (m & h & Eh & Km & Gh & Gm).
    rewrite Eh. cbn [dbind dm_erase ivs lists] in *. destruct merge; cbn [negb].
    - set (d3 := dm_insert (DM (iverase x (ivs d)) m) (Range B (ilo x - 1)) h).
      assert (D3 : d3 = DM (ins (IV B (ilo x - 1) h) (iverase x (ivs d))) m).
      { unfold d3, dm_insert. rewrite toPair_le by lia. reflexivity. }
      assert (W3 : wf (ivs d3)).
      { rewrite D3. cbn [ivs]. apply wf_ins; [exact We|cbn [ilo ihi]; lia|].
        intros y I. cbn [ilo ihi]. destruct (Xo y I). lia. }
      assert (I3 : forall y, In y (ivs d3) <-> y = IV B (ilo x - 1) h \/
                 (In y (ivs d) /\ (ihi x < ilo y \/ ihi y < ilo x))).
      { intros y. rewrite D3. cbn [ivs]. rewrite in_ins, Ie. tauto. }
      assert (L3 : lists d3 = m) by (rewrite D3; reflexivity).
      unfold getDriverList. rewrite L3.
      destruct (get m (ival x)) as [l|] eqn:G.
      2:{ left. split; [reflexivity|]. rewrite Gm in G.
          destruct (Nat.eqb_spec (ival x) h); [discriminate|exact G]. }
      right. cbn [dbind].
      destruct (addDriverList_spec d3 (dunion l dl)) as (m2 & h2 & Eh2 & Km2 & Gh2 & Gm2).
      { rewrite L3. exact Km. }
      rewrite Eh2. cbn [dbind]. rewrite L3 in *. eexists. split; [reflexivity|].
      unfold dm_insert. rewrite !toPair_le by lia. cbn [ivs lists].
      rewrite Gm in Gh2. destruct (Nat.eqb_spec h2 h) as [|Dh2]; [discriminate|].
      apply EffRightM with (h := h) (h2 := h2) (l := l); auto.
      + apply wf_ins.
        * apply wf_ins; [exact W3|cbn [ilo ihi]; lia|]. intros y I. cbn [ilo ihi].
          apply I3 in I. destruct I as [->|I]; cbn [ilo ihi]; [lia|].
          apply Ie in I. destruct (Xo y I). lia.
        * cbn [ilo ihi]. lia.
        * intros y I. cbn [ilo ihi]. apply in_ins in I. destruct I as [->|I]; [cbn [ilo ihi]; lia|].
          apply I3 in I. destruct I as [->|I]; cbn [ilo ihi]; [lia|].
          apply Ie in I. destruct (Xo y I). lia.
      + rewrite Gm in G. destruct (Nat.eqb_spec (ival x) h) as [Qh|]; [|left; exact G].
        right. inversion G; subst l. split; [congruence|auto].
      + intros k. rewrite Gm2, Gm. reflexivity.
      + intros y. rewrite !in_ins, I3. tauto.
    - right. eexists. split; [reflexivity|].
      unfold dm_insert. rewrite !toPair_le by lia. cbn [ivs lists].
      apply EffRight with (h := h); auto.
      + apply wf_ins.
        * apply wf_ins; [exact We|cbn [ilo ihi]; lia|]. intros y I. cbn [ilo ihi].
          destruct (Xo y I). lia.
        * cbn [ilo ihi]. lia.
        * intros y I. cbn [ilo ihi]. apply in_ins in I. destruct I as [->|I]; [cbn [ilo ihi]; lia|].
          destruct (Xo y I). lia.
      + intros y. rewrite !in_ins, Ie. tauto. }
  exfalso. bdec. lia.
Qed.

(** * Coverage and termination *)
Lemma wf_NoDup (m : list (iv nat)) : wf m -> NoDup m.
Proof.
  induction m as [|z m IH]; intros W; [constructor|].
  apply wf_cons in W. destruct W as (Wz & Wb & W). constructor; [|auto].
  intros I. specialize (Wb z I). lia.
Qed.

Lemma wf_other (m : list (iv nat)) x y : wf m -> In x m -> In y m ->
  y = x \/ ihi x < ilo y \/ ihi y < ilo x.
Proof.
  intros W Ix Iy. pose proof (proj1 W x Ix). pose proof (proj1 W y Iy).
  destruct (Z_lt_le_dec (ihi x) (ilo y)) as [|L1]; [auto|].
  destruct (Z_lt_le_dec (ihi y) (ilo x)) as [|L2]; [auto|]. left.
  apply (wf_two m y x (Z.max (ilo x) (ilo y))); auto; unfold inside; lia.
Qed.

Lemma find_shrink (v w : list (iv nat)) B U B' U' x :
  wf v -> wf w -> In x w -> ilo x <= U -> B <= ihi x ->
  (forall y, In y v -> ilo y <= U' -> B' <= ihi y ->
     In y w /\ y <> x /\ ilo y <= U /\ B <= ihi y) ->
  (length (ivfind B' U' v) < length (ivfind B U w))%nat.
Proof.
  intros Wv Ww Ix X1 X2 H.
  assert (N : NoDup (x :: ivfind B' U' v)).
  { constructor; [|apply wf_NoDup, wf_ivfind, Wv]. intros I. apply in_ivfind in I.
    destruct I as (I & I1 & I2). destruct (H x I I1 I2) as (_ & C & _). congruence. }
  apply (NoDup_incl_length N (l' := ivfind B U w)).
  intros y [<-|I]; [apply in_ivfind; auto|]. apply in_ivfind in I.
  destruct I as (I & I1 & I2). destruct (H y I I1 I2) as (A & _ & C). apply in_ivfind. auto.
Qed.

Lemma effect_cov merge dl d B U x o :
  dok d -> B <= U -> In x (ivs d) -> ilo x <= U -> B <= ihi x ->
  effect merge dl d B U x o ->
  match o with
  | Return d' => dok d' /\ forall i, covers (ivs d') i <-> covers (ivs d) i \/ B <= i <= U
  | Again d' b' => dok d' /\ exists B', b' = Range B' U /\ B <= B' <= U /\
      (forall i, covers (ivs d') i \/ B' <= i <= U <-> covers (ivs d) i \/ B <= i <= U) /\
      (length (ivfind B' U (ivs d')) < length (ivfind B U (ivs d)))%nat
  | Skip => False
  end.
Proof.
  intros [W K] LU Ix X1 X2 E. pose proof (proj1 W x Ix) as Xne.
  assert (Oth : forall y, In y (ivs d) -> y = x \/ ihi x < ilo y \/ ihi y < ilo x)
    by (intros y; apply wf_other; auto).
  destruct E; subst.
  - split; [split; auto|]. intros i. cbn [ivs]. split; [auto|]. intros [C|C]; [exact C|].
    exists x. split; [auto|]. unfold inside. lia.
  - split; [split; auto|]. intros i. cbn [ivs]. split.
    + intros (y & I & C). unfold inside in C. apply H8 in I.
      destruct I as [->|[[A ->]|[[A ->]|[I D]]]]; cbn [ilo ihi] in C.
      * auto.
      * left. exists x. split; [auto|]. unfold inside. lia.
      * left. exists x. split; [auto|]. unfold inside. lia.
      * left. exists y. auto.
    + intros [(y & I & C)|C].
      * destruct (Oth y I) as [->|D].
        -- unfold inside in C.
           destruct (Z_lt_le_dec i B).
           ++ exists (IV (ilo x) (B - 1) (ival x)). rewrite H8. unfold inside; cbn [ilo ihi].
              split; [right; left; split; [lia|reflexivity]|lia].
           ++ destruct (Z_lt_le_dec U i).
              ** exists (IV (U + 1) (ihi x) (ival x)). rewrite H8. unfold inside; cbn [ilo ihi].
                 split; [right; right; left; split; [lia|reflexivity]|lia].
              ** exists (IV B U h). rewrite H8. unfold inside; cbn [ilo ihi]. split; [auto|lia].
        -- exists y. rewrite H8. auto 10.
      * exists (IV B U h). rewrite H8. unfold inside; cbn [ilo ihi]. split; [auto|lia].
  - split; [split; auto|]. exists B. split; [reflexivity|]. split; [lia|]. cbn [ivs]. split.
    + intros i. split.
      * intros [(y & I & C)|C]; [|auto]. apply H5 in I. left. exists y. split; [tauto|exact C].
      * intros [(y & I & C)|C]; [|auto]. destruct (Oth y I) as [->|D].
        -- right. unfold inside in C. lia.
        -- left. exists y. rewrite H5. auto.
    + apply (find_shrink v (ivs d) B U B U x); auto.
      intros y I L1 L2. apply H5 in I. destruct I as [I D].
      split; [exact I|]. split; [|auto]. intros ->. lia.
  - assert (Cv : forall i, covers v i <-> covers (ivs d) i \/ B <= i < ilo x).
    { intros i. split.
      - intros (y & I & C). apply H7 in I. destruct I as [I|[A ->]].
        + left. exists y. auto.
        + right. unfold inside in C. cbn [ilo ihi] in C. lia.
      - intros [(y & I & C)|C].
        + exists y. rewrite H7. auto.
        + exists (IV B (ilo x - 1) h). rewrite H7. unfold inside; cbn [ilo ihi].
          split; [right; split; [lia|reflexivity]|lia]. }
    assert (Cx : forall i, inside x i -> covers (ivs d) i) by (intros i C; exists x; auto).
    destruct (Z.ltb_spec U (ihi x + 1)) as [L|L].
    + split; [split; auto|]. intros i. cbn [ivs]. rewrite Cv. split.
      * intros [C|C]; [auto|]. right. lia.
      * intros [C|C]; [auto|]. destruct (Z_lt_le_dec i (ilo x)); [right; lia|].
        left. apply Cx. unfold inside. lia.
    + split; [split; auto|]. exists (ihi x + 1). split; [reflexivity|]. split; [lia|].
      cbn [ivs]. split.
      * intros i. rewrite Cv. split.
        -- intros [[C|C]|C]; auto; right; lia.
        -- intros [C|C]; [auto|]. destruct (Z_lt_le_dec i (ilo x)); [left; right; lia|].
           destruct (Z_lt_le_dec (ihi x) i); [right; lia|].
           left. left. apply Cx. unfold inside. lia.
      * apply (find_shrink v (ivs d) B U (ihi x + 1) U x); auto.
        intros y I L1 L2. apply H7 in I. destruct I as [I|[A ->]]; [|cbn [ilo ihi] in *; lia].
        split; [exact I|]. split; [intros ->; lia|]. lia.
  - split; [split; auto|]. exists (ihi x + 1). split; [reflexivity|]. split; [lia|].
    cbn [ivs]. split.
    + intros i. split.
      * intros [(y & I & C)|C]; [|right; lia]. unfold inside in C. apply H8 in I.
        destruct I as [->|[->|[I D]]]; cbn [ilo ihi] in C.
        -- right. lia.
        -- left. exists x. split; [auto|]. unfold inside. lia.
        -- left. exists y. auto.
      * intros [(y & I & C)|C].
        -- destruct (Oth y I) as [->|D].
           ++ left. unfold inside in C. destruct (Z_lt_le_dec i B).
              ** exists (IV (ilo x) (B - 1) (ival x)). rewrite H8. unfold inside; cbn [ilo ihi].
                 split; [auto|lia].
              ** exists (IV B (ihi x) h). rewrite H8. unfold inside; cbn [ilo ihi].
                 split; [auto|lia].
           ++ left. exists y. rewrite H8. auto.
        -- destruct (Z_lt_le_dec (ihi x) i); [right; lia|]. left.
           exists (IV B (ihi x) h). rewrite H8. unfold inside; cbn [ilo ihi]. split; [auto|lia].
    + apply (find_shrink v (ivs d) B U (ihi x + 1) U x); auto.
      intros y I L1 L2. apply H8 in I.
      destruct I as [->|[->|[I D]]]; [cbn [ilo ihi] in *; lia|cbn [ilo ihi] in *; lia|].
      split; [exact I|]. split; [intros ->; lia|]. lia.
  - split; [split; auto|]. intros i. cbn [ivs]. split.
    + intros (y & I & C). unfold inside in C. apply H7 in I.
      destruct I as [->|[->|[I D]]]; cbn [ilo ihi] in C.
      * auto.
      * left. exists x. split; [auto|]. unfold inside. lia.
      * left. exists y. auto.
    + intros [(y & I & C)|C].
      * destruct (Oth y I) as [->|D].
        -- unfold inside in C. destruct (Z_lt_le_dec U i).
           ++ exists (IV (U + 1) (ihi x) (ival x)). rewrite H7. unfold inside; cbn [ilo ihi].
              split; [auto|lia].
           ++ exists (IV B U h). rewrite H7. unfold inside; cbn [ilo ihi]. split; [auto|lia].
        -- exists y. rewrite H7. auto.
      * exists (IV B U h). rewrite H7. unfold inside; cbn [ilo ihi]. split; [auto|lia].
  - split; [split; auto|]. intros i. cbn [ivs]. split.
    + intros (y & I & C). unfold inside in C. apply H10 in I.
      destruct I as [->|[->|[->|[I D]]]]; cbn [ilo ihi] in C.
      * right. lia.
      * right. lia.
      * left. exists x. split; [auto|]. unfold inside. lia.
      * left. exists y. auto.
    + assert (M : B <= i <= U -> covers v i).
      { intros C. destruct (Z_lt_le_dec i (ilo x)).
        - exists (IV B (ilo x - 1) h). rewrite H10. unfold inside; cbn [ilo ihi]. split; [auto|lia].
        - exists (IV (ilo x) U h2). rewrite H10. unfold inside; cbn [ilo ihi]. split; [auto|lia]. }
      intros [(y & I & C)|C]; [|auto]. destruct (Oth y I) as [->|D].
      * unfold inside in C. destruct (Z_lt_le_dec U i); [|apply M; lia].
        exists (IV (U + 1) (ihi x) (ival x)). rewrite H10. unfold inside; cbn [ilo ihi].
        split; [auto|lia].
      * exists y. rewrite H10. auto 10.
Qed.

Lemma dm_find_range d B U : B <= U -> dm_find d (Range B U) = ivfind B U (ivs d).
Proof.
  intros L. unfold dm_find, toPair, lower, upper; cbn [rleft rright fst snd].
  now rewrite Z.min_l, Z.max_r by lia.
Qed.

(** Insertion of what remains, lines 277-279. *)
Lemma final_insert dl d B U : dok d -> B <= U -> ivfind B U (ivs d) = [] ->
  exists m h, (do (d1, newHandle) <- addDriverList d dl; DOk (dm_insert d1 (Range B U) newHandle))
     = DOk (DM (ins (IV B U h) (ivs d)) m) /\
    wf (ins (IV B U h) (ivs d)) /\ mok m /\ get (lists d) h = None /\
    forall k, get m k = if Nat.eqb k h then Some dl else get (lists d) k.
Proof.
  intros [W K] L F. destruct (addDriverList_spec d dl K) as (m & h & E & Km & Gh & Gm).
  exists m, h. rewrite E. cbn [dbind]. unfold dm_insert. rewrite toPair_le by lia.
  split; [reflexivity|]. split; [|auto]. apply wf_ins; [exact W|exact L|].
  intros y I. cbn [ilo ihi]. apply (ivfind_none B U (ivs d) F y I).
Qed.

Lemma loop_cov merge dl U : forall fuel d B,
  dok d -> B <= U -> (length (ivfind B U (ivs d)) < fuel)%nat ->
  add_loop fuel merge dl d (Range B U) (dm_find d (Range B U)) = DErr EHandle \/
  exists d', add_loop fuel merge dl d (Range B U) (dm_find d (Range B U)) = DOk d' /\ dok d' /\
    forall i, covers (ivs d') i <-> covers (ivs d) i \/ B <= i <= U.
Proof.
  induction fuel as [|f IH]; intros d B K L Fu; [lia|]. cbn [add_loop].
  destruct (dm_find d (Range B U)) as [|x rest] eqn:F.
  - right. rewrite dm_find_range in F by auto.
    destruct (final_insert dl d B U K L F) as (m & h & E & W' & Km & _).
    eexists. split; [exact E|]. split; [split; auto|]. intros i. cbn [ivs].
    rewrite covers_ins. unfold inside; cbn [ilo ihi]. tauto.
  - destruct (body_effect merge dl d B U x rest K L F) as [[E _]|(o & E & Ef)].
    + left. rewrite E. reflexivity.
    + rewrite E. cbn [dbind]. rewrite dm_find_range in F by auto.
      destruct (find_first B U x rest (ivs d) (proj1 K) F) as (Ix & X1 & X2 & _).
      pose proof (effect_cov merge dl d B U x o K L Ix X1 X2 Ef) as C.
      destruct o as [d'|d' b'|]; [|destruct C as (K' & B' & -> & LB & C & Sh)|contradiction].
      * right. exists d'. destruct C as [K' C]. auto.
      * destruct (IH d' B' K') as [Q|(d2 & Q & K2 & C2)]; [lia|lia|left; exact Q|].
        right. exists d2. split; [exact Q|]. split; [exact K2|]. intros i. rewrite C2. apply C.
Qed.

Lemma lower_upper b : lower b <= upper b.
Proof. unfold lower, upper. lia. Qed.

Lemma find_length (l u : Z) (m : list (iv nat)) : (length (ivfind l u m) <= length m)%nat.
Proof.
  unfold ivfind. induction m as [|z m IH]; cbn [filter length]; [lia|].
  destruct (ovl l u z); cbn [length]; lia.
Qed.

Lemma addDrivers_cov d b dl merge : dok d ->
  addDrivers d b dl merge = DErr EHandle \/
  exists d', addDrivers d b dl merge = DOk d' /\ dok d' /\
    forall i, covers (ivs d') i <-> covers (ivs d) i \/ lower b <= i <= upper b.
Proof.
  intros K. unfold addDrivers. cbv zeta. apply loop_cov; [exact K|apply lower_upper|].
  pose proof (find_length (lower b) (upper b) (ivs d)). lia.
Qed.

Lemma dok_empty : dok dm_empty.
Proof. split; [apply wf_nil|apply mok_empty]. Qed.

Lemma run_cov : forall h d, dok d ->
  run_calls d h = DErr EHandle \/
  exists d', run_calls d h = DOk d' /\ dok d' /\
    forall i, covers (ivs d') i <->
      covers (ivs d) i \/ exists b dl m, In (b, dl, m) h /\ lower b <= i <= upper b.
Proof.
  induction h as [|[[b dl] m] h IH]; intros d K; cbn [run_calls].
  - right. exists d. split; [reflexivity|]. split; [exact K|]. intros i.
    split; [auto|]. intros [C|(b & dl & m & [] & _)]. exact C.
  - destruct (addDrivers_cov d b dl m K) as [E|(d1 & E & K1 & C1)]; rewrite E; cbn [dbind];
      [auto|].
    destruct (IH d1 K1) as [Q|(d2 & Q & K2 & C2)]; [auto|]. right. exists d2.
    split; [exact Q|]. split; [exact K2|]. intros i. rewrite C2, C1. split.
    + intros [[C|C]|(b' & dl' & m' & I & C)]; [auto| |].
      * right. exists b, dl, m. split; [now left|exact C].
      * right. exists b', dl', m'. split; [now right|exact C].
    + intros [C|(b' & dl' & m' & [I|I] & C)]; [auto| |].
      * inversion I; subst. auto.
      * right. exists b', dl', m'. auto.
Qed.

(** * Drivers of a bit *)
Definition has (d : dmap) (i : Z) (n : nat) : Prop :=
  exists x l, In x (ivs d) /\ inside x i /\ get (lists d) (ival x) = Some l /\ In n l.

Definition allvalid (d : dmap) : Prop := forall x, In x (ivs d) -> get (lists d) (ival x) <> None.

Lemma allvalid_spec d : allvalid d <-> ~ dangling d.
Proof.
  unfold allvalid, dangling. split.
  - intros H (x & I & E). apply (H x I E).
  - intros H x I E. apply H. exists x. auto.
Qed.

Lemma allvalid_some d x : allvalid d -> In x (ivs d) -> exists l, get (lists d) (ival x) = Some l.
Proof. intros V I. specialize (V x I). destruct (get _ _) as [l|]; [eauto|congruence]. Qed.

(** A fresh handle is not the handle of an entry. *)
Lemma fresh_entry d h y : allvalid d -> get (lists d) h = None -> In y (ivs d) ->
  Nat.eqb (ival y) h = false.
Proof.
  intros V G I. apply Nat.eqb_neq. intros E. apply (V y I). now rewrite E.
Qed.

(** ** Merging never loses a driver *)
Lemma effect_merge dl d B U x o :
  dok d -> allvalid d -> B <= U -> In x (ivs d) -> ilo x <= U -> B <= ihi x ->
  effect true dl d B U x o ->
  match o with
  | Return d' => allvalid d' /\ (forall i n, has d i n -> has d' i n) /\
      (forall i n, B <= i <= U -> In n dl -> has d' i n)
  | Again d' b' => allvalid d' /\ (forall i n, has d i n -> has d' i n) /\
      (forall i n, B <= i < rleft b' -> In n dl -> has d' i n)
  | Skip => False
  end.
Proof.
  intros [W K] V LU Ix X1 X2 E. pose proof (proj1 W x Ix) as Xne.
  assert (Oth : forall y, In y (ivs d) -> y = x \/ ihi x < ilo y \/ ihi y < ilo x)
    by (intros y; apply wf_other; auto).
  inversion E; subst; try discriminate.
  - (* equal *) split; [|split].
    + intros y I. cbn [lists]. rewrite H3. destruct (Nat.eqb _ _); [discriminate|]. apply V, I.
    + intros i n (y & l0 & I & C & G & N). exists y. cbn [ivs lists]. rewrite H3.
      destruct (Nat.eqb_spec (ival y) (ival x)) as [Q|Q].
      * exists (dunion l dl). rewrite in_dunion. rewrite Q, H1 in G. inversion G; subst. auto.
      * exists l0. auto.
    + intros i n C N. exists x, (dunion l dl). cbn [ivs lists]. rewrite H3, Nat.eqb_refl.
      rewrite in_dunion. repeat split; auto; apply C.
  - (* inside an existing entry *)
    destruct (H5 eq_refl) as (l0 & G0 & ->). clear H6.
    assert (Fx : Nat.eqb (ival x) h = false) by (apply (fresh_entry d); auto).
    split; [|split].
    + intros y I. cbn [ivs lists] in *. rewrite H7. apply H8 in I.
      destruct I as [->|[[A ->]|[[A ->]|[I D]]]]; cbn [ival].
      * rewrite Nat.eqb_refl. discriminate.
      * rewrite Fx. apply V, Ix.
      * rewrite Fx. apply V, Ix.
      * rewrite (fresh_entry d) by auto. apply V, I.
    + intros i n (y & l1 & I & C & G & N). unfold inside in C. destruct (Oth y I) as [->|D].
      * rewrite G0 in G. inversion G; subst l1.
        destruct (Z_lt_le_dec i B).
        -- exists (IV (ilo x) (B - 1) (ival x)), l0. cbn [ivs lists ival]. rewrite H7, H8, Fx.
           unfold inside; cbn [ilo ihi].
           split; [right; left; split; [lia|reflexivity]|]. split; [lia|auto].
        -- destruct (Z_lt_le_dec U i).
           ++ exists (IV (U + 1) (ihi x) (ival x)), l0. cbn [ivs lists ival]. rewrite H7, H8, Fx.
              unfold inside; cbn [ilo ihi].
              split; [right; right; left; split; [lia|reflexivity]|]. split; [lia|auto].
           ++ exists (IV B U h), (dunion l0 dl). cbn [ivs lists ival]. rewrite H7, H8, Nat.eqb_refl.
              unfold inside; cbn [ilo ihi]. rewrite in_dunion. split; [auto|]. split; [lia|auto].
      * exists y, l1. cbn [ivs lists]. rewrite H7, H8. rewrite (fresh_entry d) by auto.
        unfold inside. auto 10.
    + intros i n C N. exists (IV B U h), (dunion l0 dl). cbn [ivs lists ival].
      rewrite H7, H8, Nat.eqb_refl. unfold inside; cbn [ilo ihi]. rewrite in_dunion.
      split; [auto|]. split; [lia|auto].
  - (* over an existing entry *)
    assert (Fh : B < ilo x -> forall y, In y (ivs d) -> Nat.eqb (ival y) h = false).
    { intros L y I. apply (fresh_entry d); auto. }
    assert (A1 : allvalid (DM v m)).
    { intros y I. cbn [ivs lists] in *. rewrite H6. apply H7 in I.
      destruct (Nat.eqb_spec (ival y) (ival x)) as [Q|Q]; [discriminate|].
      destruct I as [I|[A ->]].
      - destruct (Nat.eqb_spec (ival y) h) as [Q'|Q'].
        + destruct (Z.ltb_spec B (ilo x)); [discriminate|]. apply V, I.
        + apply V, I.
      - cbn [ival]. rewrite Nat.eqb_refl. rewrite (proj2 (Z.ltb_lt _ _) A). discriminate. }
    assert (A2 : forall i n, has d i n -> has (DM v m) i n).
    { intros i n (y & l1 & I & C & G & N).
      destruct (Nat.eqb_spec (ival y) (ival x)) as [Q|Q].
      - exists y, (dunion l dl). cbn [ivs lists]. rewrite H6, H7, Q, Nat.eqb_refl, in_dunion.
        rewrite Q, H4 in G. inversion G; subst. auto.
      - exists y, l1. cbn [ivs lists]. rewrite H6, H7.
        rewrite (proj2 (Nat.eqb_neq _ _) Q). split; [auto|]. split; [exact C|]. split; [|exact N].
        destruct (Nat.eqb_spec (ival y) h) as [Q'|Q']; [|exact G].
        destruct (Z.ltb_spec B (ilo x)) as [L|L]; [|exact G].
        apply Nat.eqb_eq in Q'. rewrite (Fh L y I) in Q'. discriminate. }
    assert (A3 : forall i n, B <= i <= ihi x -> In n dl -> has (DM v m) i n).
    { intros i n C N. destruct (Z_lt_le_dec i (ilo x)).
      - assert (L : B < ilo x) by lia.
        exists (IV B (ilo x - 1) h), dl. cbn [ivs lists ival]. rewrite H6, H7, Nat.eqb_refl.
        rewrite Nat.eqb_sym, (Fh L x Ix), (proj2 (Z.ltb_lt _ _) L).
        unfold inside; cbn [ilo ihi]. split; [right; auto|]. split; [lia|auto].
      - exists x, (dunion l dl). cbn [ivs lists]. rewrite H6, H7, Nat.eqb_refl, in_dunion.
        unfold inside. split; [auto|]. split; [lia|auto]. }
    destruct (Z.ltb_spec U (ihi x + 1)) as [L|L].
    + split; [exact A1|]. split; [exact A2|]. intros i n C N. apply A3; [lia|exact N].
    + split; [exact A1|]. split; [exact A2|]. cbn [rleft]. intros i n C N. apply A3; [lia|exact N].
  - (* left overlap *)
    destruct (H5 eq_refl) as (l0 & G0 & ->). clear H6.
    assert (Fx : Nat.eqb (ival x) h = false) by (apply (fresh_entry d); auto).
    split; [|split].
    + intros y I. cbn [ivs lists] in *. rewrite H7. apply H8 in I.
      destruct I as [->|[->|[I D]]]; cbn [ival].
      * rewrite Nat.eqb_refl. discriminate.
      * rewrite Fx. apply V, Ix.
      * rewrite (fresh_entry d) by auto. apply V, I.
    + intros i n (y & l1 & I & C & G & N). unfold inside in C. destruct (Oth y I) as [->|D].
      * rewrite G0 in G. inversion G; subst l1.
        destruct (Z_lt_le_dec i B).
        -- exists (IV (ilo x) (B - 1) (ival x)), l0. cbn [ivs lists ival]. rewrite H7, H8, Fx.
           unfold inside; cbn [ilo ihi]. split; [auto|]. split; [lia|auto].
        -- exists (IV B (ihi x) h), (dunion l0 dl). cbn [ivs lists ival].
           rewrite H7, H8, Nat.eqb_refl.
           unfold inside; cbn [ilo ihi]. rewrite in_dunion. split; [auto|]. split; [lia|auto].
      * exists y, l1. cbn [ivs lists]. rewrite H7, H8. rewrite (fresh_entry d) by auto.
        unfold inside. auto 10.
    + cbn [rleft]. intros i n C N. exists (IV B (ihi x) h), (dunion l0 dl). cbn [ivs lists ival].
      rewrite H7, H8, Nat.eqb_refl. unfold inside; cbn [ilo ihi]. rewrite in_dunion.
      split; [auto|]. split; [lia|auto].
  - (* right overlap *)
    assert (G0 : get (lists d) (ival x) = Some l).
    { destruct H8 as [G0|[G0 _]]; [exact G0|]. exfalso. apply (V x Ix G0). }
    assert (Fh : forall y, In y (ivs d) -> Nat.eqb (ival y) h = false)
      by (intros y I; apply (fresh_entry d); auto).
    assert (Fh2 : forall y, In y (ivs d) -> Nat.eqb (ival y) h2 = false)
      by (intros y I; apply (fresh_entry d); auto).
    assert (A3 : forall i n, B <= i <= U -> In n dl -> has (DM v m) i n).
    { intros i n C N. destruct (Z_lt_le_dec i (ilo x)).
      - exists (IV B (ilo x - 1) h), dl. cbn [ivs lists ival].
        rewrite H9, H10, Nat.eqb_refl, (proj2 (Nat.eqb_neq _ _) H7).
        unfold inside; cbn [ilo ihi]. split; [auto|]. split; [lia|auto].
      - exists (IV (ilo x) U h2), (dunion l dl). cbn [ivs lists ival].
        rewrite H9, H10, Nat.eqb_refl, in_dunion. unfold inside; cbn [ilo ihi].
        split; [auto|]. split; [lia|auto]. }
    split; [|split; [|exact A3]].
    + intros y I. cbn [ivs lists] in *. rewrite H9. apply H10 in I.
      destruct I as [->|[->|[->|[I D]]]]; cbn [ival].
      * rewrite Nat.eqb_refl. destruct (Nat.eqb h h2); discriminate.
      * rewrite Nat.eqb_refl. discriminate.
      * rewrite Fh, Fh2 by auto. apply V, Ix.
      * rewrite Fh, Fh2 by auto. apply V, I.
    + intros i n (y & l1 & I & C & G & N). unfold inside in C. destruct (Oth y I) as [->|D].
      * rewrite G0 in G. inversion G; subst l1.
        destruct (Z_lt_le_dec U i).
        -- exists (IV (U + 1) (ihi x) (ival x)), l. cbn [ivs lists ival].
           rewrite H9, H10, Fh, Fh2 by auto.
           unfold inside; cbn [ilo ihi]. split; [auto|]. split; [lia|auto].
        -- exists (IV (ilo x) U h2), (dunion l dl). cbn [ivs lists ival].
           rewrite H9, H10, Nat.eqb_refl, in_dunion. unfold inside; cbn [ilo ihi].
           split; [auto|]. split; [lia|auto].
      * exists y, l1. cbn [ivs lists]. rewrite H9, H10, Fh, Fh2 by auto.
        unfold inside. auto 10.
Qed.

Lemma loop_merge dl U : forall fuel d B,
  dok d -> allvalid d -> B <= U -> (length (ivfind B U (ivs d)) < fuel)%nat ->
  exists d', add_loop fuel true dl d (Range B U) (dm_find d (Range B U)) = DOk d' /\
    dok d' /\ allvalid d' /\
    (forall i n, has d i n -> has d' i n) /\
    (forall i n, B <= i <= U -> In n dl -> has d' i n).
Proof.
  induction fuel as [|f IH]; intros d B K V L Fu; [lia|]. cbn [add_loop].
  destruct (dm_find d (Range B U)) as [|x rest] eqn:F.
  - rewrite dm_find_range in F by auto.
    destruct (final_insert dl d B U K L F) as (m & h & E & W' & Km & Gh & Gm).
    eexists. split; [exact E|]. split; [split; auto|]. split; [|split].
    + intros y I. cbn [ivs lists] in *. rewrite Gm. apply in_ins in I.
      destruct I as [->|I]; cbn [ival].
      * rewrite Nat.eqb_refl. discriminate.
      * rewrite (fresh_entry d) by auto. apply V, I.
    + intros i n (y & l & I & C & G & N). exists y, l. cbn [ivs lists].
      rewrite Gm, in_ins, (fresh_entry d) by auto. auto.
    + intros i n C N. exists (IV B U h), dl. cbn [ivs lists ival].
      rewrite Gm, in_ins, Nat.eqb_refl. unfold inside; cbn [ilo ihi]. auto.
  - destruct (body_effect true dl d B U x rest K L F) as [[E G]|(o & E & Ef)].
    + exfalso. rewrite dm_find_range in F by auto.
      destruct (find_first B U x rest (ivs d) (proj1 K) F) as (Ix & _). apply (V x Ix G).
    + rewrite E. cbn [dbind]. rewrite dm_find_range in F by auto.
      destruct (find_first B U x rest (ivs d) (proj1 K) F) as (Ix & X1 & X2 & _).
      pose proof (effect_cov true dl d B U x o K L Ix X1 X2 Ef) as C.
      pose proof (effect_merge dl d B U x o K V L Ix X1 X2 Ef) as M.
      destruct o as [d'|d' b'|]; [|destruct C as (K' & B' & -> & LB & C & Sh)|contradiction].
      * exists d'. destruct C as [K' C]. split; [reflexivity|]. split; [exact K'|exact M].
      * destruct M as (V' & M1 & M2). cbn [rleft] in M2.
        destruct (IH d' B' K' V') as (d2 & Q & K2 & V2 & N1 & N2); [lia|lia|].
        exists d2. split; [exact Q|]. split; [exact K2|]. split; [exact V2|]. split.
        -- intros i n H. apply N1, M1, H.
        -- intros i n Ci N. destruct (Z_lt_le_dec i B').
           ++ apply N1, M2; [lia|exact N].
           ++ apply N2; [lia|exact N].
Qed.

Lemma addDrivers_merge d b dl : dok d -> allvalid d ->
  exists d', addDrivers d b dl true = DOk d' /\ dok d' /\ allvalid d' /\
    (forall i n, has d i n -> has d' i n) /\
    (forall i n, lower b <= i <= upper b -> In n dl -> has d' i n).
Proof.
  intros K V. unfold addDrivers. cbv zeta. apply loop_merge; auto; [apply lower_upper|].
  pose proof (find_length (lower b) (upper b) (ivs d)). lia.
Qed.

Lemma run_merge : forall h d, dok d -> allvalid d ->
  (forall b dl m, In (b, dl, m) h -> m = true) ->
  exists d', run_calls d h = DOk d' /\ dok d' /\ allvalid d' /\
    (forall i n, has d i n -> has d' i n) /\
    (forall b dl m i n, In (b, dl, m) h -> lower b <= i <= upper b -> In n dl -> has d' i n).
Proof.
  induction h as [|[[b dl] m] h IH]; intros d K V Hm; cbn [run_calls].
  - exists d. split; [reflexivity|]. split; [exact K|]. split; [exact V|]. split; [auto|].
    intros b dl m i n [].
  - assert (m = true) by (apply (Hm b dl m); now left). subst m.
    destruct (addDrivers_merge d b dl K V) as (d1 & E & K1 & V1 & A & C).
    rewrite E. cbn [dbind].
    destruct (IH d1 K1 V1) as (d2 & Q & K2 & V2 & A2 & C2).
    { intros b' dl' m' I. apply (Hm b' dl' m'). now right. }
    exists d2. split; [exact Q|]. split; [exact K2|]. split; [exact V2|]. split; [auto|].
    intros b' dl' m' i n [I|I] Ci N.
    + inversion I; subst. auto.
    + apply (C2 b' dl' m' i n I Ci N).
Qed.
