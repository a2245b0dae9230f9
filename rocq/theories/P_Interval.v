(** Proofs about interval maps, the difference, the variable tracker and the cut
    registry. *)
From Coq Require Import Sorted.
From Verif Require Import Base M_Range M_Interval S_Interval.
Local Open Scope Z_scope.

(** * Ordered pairs *)
Lemma SS_split {A} (R : A -> A -> Prop) m :
  StronglySorted R m <-> (forall p x q y r, m = p ++ x :: q ++ y :: r -> R x y).
Proof.
  split.
  - intros H. induction H as [|a l H IH F]; intros p x q y r E.
    + destruct p; discriminate.
    + destruct p as [|b p]; cbn [app] in E; injection E as -> E.
      * rewrite Forall_forall in F. apply F. rewrite E. apply in_or_app. right. now left.
      * eapply IH; eassumption.
  - induction m as [|a m IH]; intros H; constructor.
    + apply IH. intros p x q y r E. apply (H (a :: p) x q y r). now rewrite E.
    + apply Forall_forall. intros y I. apply in_split in I. destruct I as (l1 & l2 & E).
      apply (H [] a l1 y l2). now rewrite E.
Qed.

Definition below {V} (x y : iv V) : Prop := ihi x < ilo y.
Definition wf {V} (m : list (iv V)) : Prop := nonempty_ivs m /\ StronglySorted below m.

Lemma wf_spec {V} (m : list (iv V)) : wf m <-> nonempty_ivs m /\ disjoint_ivs m.
Proof. unfold wf, disjoint_ivs. now rewrite SS_split. Qed.

Lemma wf_nil {V} : wf (@nil (iv V)).
Proof. split; [intros x []|constructor]. Qed.

Lemma wf_cons {V} (x : iv V) m :
  wf (x :: m) <-> ilo x <= ihi x /\ (forall y, In y m -> ihi x < ilo y) /\ wf m.
Proof.
  split.
  - intros [N S]. inversion S; subst. rewrite Forall_forall in H2.
    split; [apply N; now left|]. split; [exact H2|].
    split; [|exact H1]. intros y I. apply N. now right.
  - intros (A & B & N & S). split.
    + intros y [<-|I]; auto.
    + constructor; [exact S|]. apply Forall_forall. exact B.
Qed.

Lemma covers_cons {V} (x : iv V) m i : covers (x :: m) i <-> inside x i \/ covers m i.
Proof.
  split.
  - intros (y & [<-|I] & C); [now left|right; exists y; auto].
  - intros [C|(y & I & C)]; [exists x|exists y]; split; auto; [now left|now right].
Qed.

Lemma covers_nil {V} i : ~ covers (@nil (iv V)) i.
Proof. intros (x & [] & _). Qed.

(** * ins / erase / find *)
Lemma in_ins {V} (x y : iv V) m : In y (ins x m) <-> y = x \/ In y m.
Proof.
  induction m as [|z m IH]; cbn [ins].
  - cbn. intuition.
  - destruct (ilo x <? ilo z); cbn [In]; [intuition|]. rewrite IH. intuition.
Qed.

Lemma covers_ins {V} (x : iv V) m i : covers (ins x m) i <-> inside x i \/ covers m i.
Proof.
  split.
  - intros (y & I & C). apply in_ins in I. destruct I as [->|I]; [now left|right; exists y; auto].
  - intros [C|(y & I & C)]; [exists x|exists y]; rewrite in_ins; auto.
Qed.

Lemma wf_ins {V} (x : iv V) m :
  wf m -> ilo x <= ihi x -> (forall y, In y m -> ihi x < ilo y \/ ihi y < ilo x) ->
  wf (ins x m).
Proof.
  induction m as [|z m IH]; intros W Hx D; cbn [ins].
  - apply wf_cons. repeat split; auto; try easy. constructor.
  - apply wf_cons in W. destruct W as (Wz & Wb & W).
    destruct (Z.ltb_spec (ilo x) (ilo z)) as [L|L].
    + apply wf_cons. split; [auto|]. split.
      * intros y I. destruct (D y I) as [A|A]; [exact A|].
        destruct I as [<-|I]; [lia|]. specialize (Wb y I). pose proof (proj1 W y I). lia.
      * apply wf_cons. auto.
    + apply wf_cons. split; [auto|]. split.
      * intros y I. apply in_ins in I. destruct I as [->|I]; [|auto].
        destruct (D z (or_introl eq_refl)); lia.
      * apply IH; auto. intros y I. apply D. now right.
Qed.

Lemma same_bounds_wf {V} (x y : iv V) m :
  wf m -> In x m -> In y m -> same_bounds x y = true -> x = y.
Proof.
  induction m as [|z m IH]; intros W Ix Iy E; [easy|].
  apply wf_cons in W. destruct W as (Wz & Wb & W).
  unfold same_bounds in E. apply andb_prop in E. destruct E as [E1 E2].
  apply Z.eqb_eq in E1, E2.
  destruct Ix as [<-|Ix], Iy as [<-|Iy]; auto.
  - specialize (Wb y Iy). lia.
  - specialize (Wb x Ix). lia.
  - apply IH; auto. unfold same_bounds. rewrite E1, E2, !Z.eqb_refl. reflexivity.
Qed.

Lemma same_bounds_refl {V} (x : iv V) : same_bounds x x = true.
Proof. unfold same_bounds. now rewrite !Z.eqb_refl. Qed.

Lemma in_erase {V} (x y : iv V) m :
  wf m -> In x m -> (In y (iverase x m) <-> In y m /\ (ihi x < ilo y \/ ihi y < ilo x)).
Proof.
  unfold iverase. induction m as [|z m IH]; intros W Ix; [easy|].
  pose proof W as W0. apply wf_cons in W. destruct W as (Wz & Wb & W). cbn [remove_first].
  destruct (same_bounds x z) eqn:E.
  - assert (x = z) by (apply (same_bounds_wf x z (z :: m)); auto; now left). subst z.
    split.
    + intros I. split; [now right|]. left. apply Wb; auto.
    + intros [[<-|I] D]; [lia|auto].
  - destruct Ix as [<-|Ix]; [now rewrite same_bounds_refl in E|].
    cbn [In]. rewrite (IH W Ix). split.
    + intros [<-|[I D]]; [|auto]. split; [now left|]. right. apply Wb; auto.
    + intros [[<-|I] D]; auto.
Qed.

Lemma wf_erase {V} (x : iv V) m : wf m -> wf (iverase x m).
Proof.
  unfold iverase. induction m as [|z m IH]; intros W; cbn [remove_first]; [exact W|].
  apply wf_cons in W. destruct W as (Wz & Wb & W).
  destruct (same_bounds x z); [exact W|].
  apply wf_cons. split; [auto|]. split; [|auto].
  intros y I. apply Wb. clear - I. induction m as [|w m IH]; cbn in *; [easy|].
  destruct (same_bounds x w); cbn in *; intuition.
Qed.

Lemma covers_erase {V} (x : iv V) m i :
  wf m -> In x m -> (covers (iverase x m) i <-> covers m i /\ ~ inside x i).
Proof.
  intros W Ix. split.
  - intros (y & I & C). apply in_erase in I; auto. destruct I as [I D].
    split; [exists y; auto|]. unfold inside in *. lia.
  - intros [(y & I & C) N]. exists y. split; auto. apply in_erase; auto. split; auto.
    destruct (Z_lt_le_dec (ihi x) (ilo y)) as [|L1]; [auto|].
    destruct (Z_lt_le_dec (ihi y) (ilo x)) as [|L2]; [auto|]. exfalso.
    assert (x = y); [|subst; auto]. clear N C.
    induction m as [|z m IH]; [easy|]. pose proof W as W0.
    apply wf_cons in W. destruct W as (Wz & Wb & W).
    destruct Ix as [<-|Ix], I as [<-|I]; auto.
    + specialize (Wb y I). lia.
    + specialize (Wb x Ix). lia.
Qed.

Lemma in_ivfind {V} l u (x : iv V) m : In x (ivfind l u m) <-> In x m /\ ilo x <= u /\ l <= ihi x.
Proof.
  unfold ivfind. rewrite filter_In. unfold ovl. rewrite andb_true_iff, !Z.leb_le. tauto.
Qed.

Lemma wf_ivfind {V} l u (m : list (iv V)) : wf m -> wf (ivfind l u m).
Proof.
  intros W. induction m as [|z m IH]; [apply wf_nil|].
  apply wf_cons in W. destruct W as (Wz & Wb & W). cbn [ivfind filter].
  destruct (ovl l u z); [|now apply IH].
  apply wf_cons. split; [auto|]. split; [|now apply IH].
  intros y I. apply Wb. apply (in_ivfind l u y m) in I. tauto.
Qed.

(** The first hit of [find] is the lowest overlapping entry. *)
Lemma find_first {V} l u (x : iv V) rest m :
  wf m -> ivfind l u m = x :: rest ->
  In x m /\ ilo x <= u /\ l <= ihi x /\
  (forall y, In y m -> y = x \/ ihi x < ilo y \/ (ihi y < ilo x /\ ihi y < l)).
Proof.
  intros W E.
  assert (I : In x (ivfind l u m)) by (rewrite E; now left).
  pose proof I as I0. apply in_ivfind in I. destruct I as (Ix & A & B).
  repeat split; auto. intros y Iy.
  destruct (Z_lt_le_dec (ihi x) (ilo y)) as [|L1]; [auto|].
  destruct (Z_lt_le_dec (ihi y) (ilo x)) as [L2|L2].
  - right; right. split; [auto|]. destruct (Z_lt_le_dec (ihi y) l); [auto|]. exfalso.
    assert (J : In y (ivfind l u m)).
    { apply in_ivfind. destruct W as [N _]. pose proof (N y Iy). repeat split; auto. lia. }
    pose proof (wf_ivfind l u m W) as W'. rewrite E in W', J. apply wf_cons in W'.
    destruct W' as (K & L & _). destruct W as [N _]. pose proof (N y Iy).
    destruct J as [<-|J]; [lia|]. specialize (L y J). lia.
  - left. clear E I0.
    induction m as [|z m IH]; [easy|]. apply wf_cons in W. destruct W as (Wz & Wb & W).
    destruct Ix as [<-|Ix], Iy as [<-|Iy]; auto.
    + specialize (Wb y Iy). lia.
    + specialize (Wb x Ix). lia.
Qed.

Lemma ivfind_none {V} l u (m : list (iv V)) :
  ivfind l u m = [] -> forall y, In y m -> u < ilo y \/ ihi y < l.
Proof.
  intros E y I. destruct (Z_lt_le_dec u (ilo y)); [auto|].
  destruct (Z_lt_le_dec (ihi y) l); [auto|]. exfalso.
  assert (J : In y (ivfind l u m)) by (apply in_ivfind; auto). rewrite E in J. easy.
Qed.

(** * unionWith *)
Lemma fold_min_le l : forall a, fold_left Z.min l a <= a.
Proof. induction l as [|x l IH]; intros a; cbn; [lia|]. specialize (IH (Z.min a x)). lia. Qed.
Lemma fold_max_ge l : forall a, a <= fold_left Z.max l a.
Proof. induction l as [|x l IH]; intros a; cbn; [lia|]. specialize (IH (Z.max a x)). lia. Qed.
Lemma fold_min_in l : forall a x, In x l -> fold_left Z.min l a <= x.
Proof.
  induction l as [|y l IH]; intros a x []; cbn; [|now apply IH].
  subst. pose proof (fold_min_le l (Z.min a x)). lia.
Qed.
Lemma fold_max_in l : forall a x, In x l -> x <= fold_left Z.max l a.
Proof.
  induction l as [|y l IH]; intros a x []; cbn; [|now apply IH].
  subst. pose proof (fold_max_ge l (Z.max a x)). lia.
Qed.
Lemma fold_min_is l : forall a, fold_left Z.min l a = a \/ In (fold_left Z.min l a) l.
Proof.
  induction l as [|y l IH]; intros a; cbn; [auto|].
  destruct (IH (Z.min a y)) as [E|E]; [|auto]. rewrite E. lia.
Qed.
Lemma fold_max_is l : forall a, fold_left Z.max l a = a \/ In (fold_left Z.max l a) l.
Proof.
  induction l as [|y l IH]; intros a; cbn; [auto|].
  destruct (IH (Z.max a y)) as [E|E]; [|auto]. rewrite E. lia.
Qed.

Lemma touch_true {V} l u (x : iv V) : touch l u x = true <-> ilo x <= u + 1 /\ l <= ihi x + 1.
Proof. unfold touch. rewrite andb_true_iff, !Z.leb_le. tauto. Qed.

Lemma covers_union {V} (x : iv V) m i :
  ilo x <= ihi x -> nonempty_ivs m -> (covers (ivunion x m) i <-> inside x i \/ covers m i).
Proof.
  intros Hx N. unfold ivunion. rewrite covers_ins.
  set (near := filter (touch (ilo x) (ihi x)) m).
  assert (HN : forall y, In y near -> In y m /\ ilo y <= ihi x + 1 /\ ilo x <= ihi y + 1).
  { intros y I. apply filter_In in I. rewrite touch_true in I. exact I. }
  split.
  - intros [C|C].
    + unfold inside in C. cbn [ilo ihi] in C.
      destruct (Z_lt_le_dec i (ilo x)) as [L|L].
      * right. destruct (fold_min_is (map ilo near) (ilo x)) as [E|E]; [lia|].
        apply in_map_iff in E. destruct E as (y & E & I). destruct (HN y I) as (A & B & D).
        exists y. split; auto. unfold inside. lia.
      * destruct (Z_lt_le_dec (ihi x) i) as [L'|L'].
        -- right. destruct (fold_max_is (map ihi near) (ihi x)) as [E|E]; [lia|].
           apply in_map_iff in E. destruct E as (y & E & I). destruct (HN y I) as (A & B & D).
           exists y. split; auto. unfold inside. lia.
        -- left. unfold inside. lia.
    + right. destruct C as (y & I & C). apply filter_In in I. exists y. tauto.
  - intros [C|(y & I & C)].
    + left. unfold inside in *. cbn [ilo ihi].
      pose proof (fold_min_le (map ilo near) (ilo x)).
      pose proof (fold_max_ge (map ihi near) (ihi x)). lia.
    + destruct (touch (ilo x) (ihi x) y) eqn:T.
      * left. assert (J : In y near) by (apply filter_In; auto).
        pose proof (fold_min_in (map ilo near) (ilo x) (ilo y) (in_map ilo near y J)).
        pose proof (fold_max_in (map ihi near) (ihi x) (ihi y) (in_map ihi near y J)).
        unfold inside in *. cbn [ilo ihi]. lia.
      * right. exists y. split; auto. apply filter_In. rewrite T. auto.
Qed.

Lemma nonempty_union {V} (x : iv V) m :
  ilo x <= ihi x -> nonempty_ivs m -> nonempty_ivs (ivunion x m).
Proof.
  intros Hx N y I. unfold ivunion in I. apply in_ins in I. destruct I as [->|I].
  - cbn [ilo ihi]. match goal with |- fold_left _ ?a ?b <= fold_left _ ?c ?d =>
      pose proof (fold_min_le a b); pose proof (fold_max_ge c d) end. lia.
  - apply filter_In in I. apply N. tauto.
Qed.

(** The coalesced map stays well formed with at least one bit between entries. *)
Definition apart {V} (x y : iv V) : Prop := ihi x + 1 < ilo y.

(** * subtractSingle *)
Definition finish {V} (en : Z) (v : V) (p : Z * list (iv V)) : list (iv V) :=
  if fst p <=? en then ivunion (IV (fst p) en v) (snd p) else snd p.

Lemma subtractSingle_finish {V} (res : list (iv V)) x second :
  subtractSingle res x second =
  finish (ihi x) (ival x) (subtract_loop (ihi x) (ival x) second (ilo x) res).
Proof. unfold subtractSingle, finish. destruct (subtract_loop _ _ _ _ _). reflexivity. Qed.

Lemma nonempty_finish {V} en (v : V) : forall second c res,
  nonempty_ivs res -> c <= en -> nonempty_ivs (finish en v (subtract_loop en v second c res)).
Proof.
  induction second as [|r rest IH]; intros c res N C; cbn [subtract_loop].
  - unfold finish. cbn [fst snd]. destruct (Z.leb_spec c en); [|auto].
    apply nonempty_union; auto.
  - destruct (Z.ltb_spec (ihi r) c); [auto|]. destruct (Z.ltb_spec en (ilo r)); [auto|].
    cbv zeta.
    assert (N1 : nonempty_ivs (if c <? ilo r then ivunion (IV c (Z.min en (ilo r - 1)) v) res
                               else res)).
    { destruct (Z.ltb_spec c (ilo r)); [|auto]. apply nonempty_union; auto. cbn [ilo ihi]. lia. }
    destruct (Z.leb_spec en (Z.max c (ihi r + 1))).
    + unfold finish. cbn [fst snd].
      destruct (Z.leb_spec (Z.max c (ihi r + 1)) en); [|auto]. apply nonempty_union; auto.
    + apply IH; auto. lia.
Qed.

(** Nothing that the second map does not cover is lost, whatever its order. *)
Lemma finish_keeps {V} en (v : V) i : forall second c res,
  nonempty_ivs res -> c <= en ->
  covers res i \/ (c <= i <= en /\ ~ covers second i) ->
  covers (finish en v (subtract_loop en v second c res)) i.
Proof.
  induction second as [|r rest IH]; intros c res N C H; cbn [subtract_loop].
  - unfold finish. cbn [fst snd]. destruct (Z.leb_spec c en); [|lia].
    apply covers_union; auto. unfold inside; cbn [ilo ihi]. tauto.
  - rewrite covers_cons in H. unfold inside in H.
    destruct (Z.ltb_spec (ihi r) c); [apply IH; auto; tauto|].
    destruct (Z.ltb_spec en (ilo r)); [apply IH; auto; tauto|].
    cbv zeta. set (res1 := if c <? ilo r then _ else _).
    assert (N1 : nonempty_ivs res1).
    { subst res1. destruct (Z.ltb_spec c (ilo r)); [|auto].
      apply nonempty_union; auto. cbn [ilo ihi]. lia. }
    assert (K1 : covers res1 i \/ (Z.max c (ihi r + 1) <= i <= en /\ ~ covers rest i)).
    { subst res1. destruct (Z.ltb_spec c (ilo r)).
      - rewrite covers_union by (auto; cbn [ilo ihi]; lia).
        unfold inside; cbn [ilo ihi]. destruct H as [H|[H H']]; [auto|].
        destruct (Z_lt_le_dec i (ilo r)); [left; left; lia|]. right. split; [lia|tauto].
      - destruct H as [H|[H H']]; [auto|]. right. split; [lia|tauto]. }
    destruct (Z.leb_spec en (Z.max c (ihi r + 1))) as [L|L].
    + unfold finish. cbn [fst snd]. destruct (Z.leb_spec (Z.max c (ihi r + 1)) en).
      * apply covers_union; auto. unfold inside; cbn [ilo ihi]. tauto.
      * destruct K1 as [K1|[K1 _]]; [auto|lia].
    + apply IH; auto. lia.
Qed.

(** What the loop keeps, for a well-formed second map. *)
Lemma finish_exact {V} en (v : V) i : forall second c res,
  nonempty_ivs res -> wf second -> c <= en ->
  (covers (finish en v (subtract_loop en v second c res)) i <->
   covers res i \/
   (c <= i <= en /\ (~ covers second i \/
      (i = en /\ exists r, In r second /\ ihi r = en - 1 /\ c <= ihi r)))).
Proof.
  induction second as [|r rest IH]; intros c res N W C; cbn [subtract_loop].
  - unfold finish. cbn [fst snd]. destruct (Z.leb_spec c en); [|lia].
    rewrite covers_union by auto. unfold inside; cbn [ilo ihi]. split.
    + intros [H1|H1]; [|auto]. right. split; [auto|]. left. apply covers_nil.
    + tauto.
  - apply wf_cons in W. destruct W as (Wr & Wb & W). rewrite covers_cons. unfold inside.
    destruct (Z.ltb_spec (ihi r) c) as [L0|L0].
    + rewrite IH by auto. split; (intros [H|[H1 [H2|H2]]]; [auto| |]);
        try (right; split; [auto|]).
      * left. intros [Q|Q]; [lia|auto].
      * right. destruct H2 as (E & q & I & H2). split; [auto|]. exists q. split; [now right|auto].
      * left. tauto.
      * right. destruct H2 as (E & q & [<-|I] & H2); [lia|]. split; [auto|]. exists q. auto.
    + destruct (Z.ltb_spec en (ilo r)) as [L1|L1].
      * rewrite IH by auto. split; (intros [H|[H1 [H2|H2]]]; [auto| |]);
          try (right; split; [auto|]).
        -- left. intros [Q|Q]; [lia|auto].
        -- right. destruct H2 as (E & q & I & H2). split; [auto|]. exists q. split; [now right|auto].
        -- left. tauto.
        -- right. destruct H2 as (E & q & [<-|I] & H2); [lia|]. split; [auto|]. exists q. auto.
      * cbv zeta. set (res1 := if c <? ilo r then _ else _).
        assert (N1 : nonempty_ivs res1).
        { subst res1. destruct (Z.ltb_spec c (ilo r)); [|auto].
          apply nonempty_union; auto. cbn [ilo ihi]. lia. }
        assert (C1 : forall j, covers res1 j <-> covers res j \/ c <= j < ilo r).
        { intros j. subst res1. destruct (Z.ltb_spec c (ilo r)).
          - rewrite covers_union by (auto; cbn [ilo ihi]; lia). unfold inside; cbn [ilo ihi].
            split; intros [H1|H1]; auto; [right; lia|left; lia].
          - split; [auto|]. intros [H1|H1]; [auto|lia]. }
        assert (NC : forall j, j <= ihi r -> ~ covers rest j).
        { intros j Hj (y & I & Hy). specialize (Wb y I). unfold inside in Hy. lia. }
        replace (Z.max c (ihi r + 1)) with (ihi r + 1) by lia.
        destruct (Z.leb_spec en (ihi r + 1)) as [L|L].
        -- unfold finish. cbn [fst snd]. destruct (Z.leb_spec (ihi r + 1) en) as [M|M].
           ++ rewrite covers_union by (auto; cbn [ilo ihi]; lia).
              unfold inside; cbn [ilo ihi]. rewrite C1. split.
              ** intros [H1|[H1|H1]]; [|auto|].
                 --- right. split; [lia|]. right. split; [lia|]. exists r.
                     split; [now left|lia].
                 --- right. split; [lia|]. left. intros [H2|H2]; [lia|].
                     apply (NC i); [lia|auto].
              ** intros [H1|[H1 [H2|H2]]]; [auto| |].
                 --- destruct (Z_lt_le_dec i (ilo r)); [right; right; lia|].
                     left. lia.
                 --- left. lia.
           ++ rewrite C1. split.
              ** intros [H1|H1]; [auto|]. right. split; [lia|]. left.
                 intros [H2|H2]; [lia|]. apply (NC i); [lia|auto].
              ** intros [H1|[H1 [H2|H2]]]; [auto| |].
                 --- right. lia.
                 --- destruct H2 as (E & q & [<-|I] & H3 & H4); [lia|].
                     specialize (Wb q I). pose proof (proj1 W q I). lia.
        -- rewrite IH by (auto; lia). rewrite C1. split.
           ++ intros [[H1|H1]|[H1 [H2|H2]]]; [auto| | |].
              ** right. split; [lia|]. left. intros [H2|H2]; [lia|].
                 apply (NC i); [lia|auto].
              ** right. split; [lia|]. left. intros [H3|H3]; [lia|auto].
              ** right. split; [lia|]. right. destruct H2 as (E & q & I & H2).
                 split; [auto|]. exists q. split; [now right|]. lia.
           ++ intros [H1|[H1 [H2|H2]]]; [auto| |].
              ** destruct (Z_lt_le_dec i (ilo r)); [left; right; lia|].
                 right. split; [lia|]. left. tauto.
              ** right. destruct H2 as (E & q & [<-|I] & H3 & H4); [lia|].
                 specialize (Wb q I). pose proof (proj1 W q I).
                 split; [lia|]. right. split; [auto|]. exists q. split; [auto|]. lia.
Qed.

Lemma difference_fold {V} (second : list (iv V)) i : wf second ->
  forall first res, nonempty_ivs first -> nonempty_ivs res ->
  (covers (fold_left (fun r x => subtractSingle r x second) first res) i <->
   covers res i \/ exists x, In x first /\ inside x i /\ (~ covers second i \/
      (i = ihi x /\ exists r, In r second /\ ihi r = ihi x - 1 /\ ilo x <= ihi r))).
Proof.
  intros W. induction first as [|x first IH]; intros res N NR; cbn [fold_left].
  - split; [auto|]. intros [H|(x & [] & _)]. exact H.
  - rewrite subtractSingle_finish.
    assert (Hx : ilo x <= ihi x) by (apply N; now left).
    rewrite IH.
    + rewrite finish_exact by auto. split.
      * intros [[H|H]|(y & I & H)]; [auto| |].
        -- right. exists x. split; [now left|exact H].
        -- right. exists y. split; [now right|exact H].
      * intros [H|(y & [<-|I] & H)]; [auto|auto|]. right. exists y. auto.
    + intros y I. apply N. now right.
    + apply nonempty_finish; auto.
Qed.

Lemma difference_keeps {V} (first second : list (iv V)) i :
  nonempty_ivs first -> covers first i -> ~ covers second i -> covers (difference first second) i.
Proof.
  intros N C NC. unfold difference. destruct second as [|s0 rest]; [exact C|].
  set (second := s0 :: rest) in *. clearbody second.
  assert (G : forall first res, nonempty_ivs first -> nonempty_ivs res ->
     covers res i \/ covers first i ->
     covers (fold_left (fun r x => subtractSingle r x second) first res) i).
  { clear first N C. induction first as [|x first IH]; intros res N NR H; cbn [fold_left].
    - destruct H as [H|H]; [exact H|]. now apply covers_nil in H.
    - rewrite subtractSingle_finish. assert (Hx : ilo x <= ihi x) by (apply N; now left).
      apply IH.
      + intros y I. apply N. now right.
      + apply nonempty_finish; auto.
      + rewrite covers_cons in H.
        destruct H as [H|[H|H]]; [left|left|now right]; apply finish_keeps; auto. }
  apply G; auto. intros x [].
Qed.

Lemma difference_exact {V} (first second : list (iv V)) i :
  nonempty_ivs first -> wf second ->
  (covers (difference first second) i <->
   exists x, In x first /\ inside x i /\ (~ covers second i \/
      (i = ihi x /\ exists r, In r second /\ ihi r = ihi x - 1 /\ ilo x <= ihi r))).
Proof.
  intros N W. unfold difference. destruct second as [|s0 rest].
  - split.
    + intros (x & I & C). exists x. repeat split; try apply C; auto.
      left. apply covers_nil.
    + intros (x & I & C & _). exists x. auto.
  - rewrite difference_fold; auto; [|intros x []].
    split; [|auto]. intros [H|H]; [now apply covers_nil in H|exact H].
Qed.

(** * VariableTracker *)
Definition ops_of (s : nat) (ops : list (nat * range * nat)) : list (range * nat) :=
  map (fun o => (snd (fst o), snd o)) (filter (fun o => Nat.eqb (fst (fst o)) s) ops).

Definition ins_all (l : list (range * nat)) (m : list (iv nat)) : list (iv nat) :=
  fold_left (fun m o => ins (IV (lower (fst o)) (upper (fst o)) (snd o)) m) l m.

Lemma vt_run_sym s : forall ops t,
  vt_run t ops s = match ops_of s ops with
                   | [] => t s
                   | l => Some (ins_all l (match t s with Some m => m | None => [] end))
                   end.
Proof.
  induction ops as [|[[s' b] n] ops IH]; intros t; [reflexivity|].
  change (vt_run t ((s', b, n) :: ops)) with (vt_run (vt_insert t s' b n) ops). rewrite IH. unfold vt_insert.
  unfold ops_of. cbn [filter fst snd map].
  destruct (Nat.eqb_spec s' s) as [->|D].
  - rewrite upd_same. cbn [map fst snd]. unfold toPair. cbn [fst snd].
    fold (ops_of s ops). destruct (ops_of s ops); reflexivity.
  - rewrite upd_other by auto. reflexivity.
Qed.

Lemma in_ins_all x : forall l m,
  In x (ins_all l m) <-> In x m \/ exists o, In o l /\ x = IV (lower (fst o)) (upper (fst o)) (snd o).
Proof.
  induction l as [|o l IH]; intros m; cbn [ins_all fold_left].
  - split; [auto|]. intros [H|(o & [] & _)]. exact H.
  - fold (ins_all l (ins (IV (lower (fst o)) (upper (fst o)) (snd o)) m)).
    rewrite IH, in_ins. split.
    + intros [[H|H]|(p & I & H)]; [right; exists o; split; auto; now left|auto|].
      right. exists p. split; [now right|auto].
    + intros [H|(p & [<-|I] & H)]; [auto|auto|]. right. exists p. auto.
Qed.

Lemma lower_le_upper b : lower b <= upper b.
Proof. unfold lower, upper. lia. Qed.

Definition dis (a b : range) : Prop := upper a < lower b \/ upper b < lower a.

Lemma wf_ins_all : forall l m, wf m ->
  ForallOrdPairs (fun a b => dis (fst a) (fst b)) l ->
  (forall o y, In o l -> In y m -> upper (fst o) < ilo y \/ ihi y < lower (fst o)) ->
  wf (ins_all l m).
Proof.
  induction l as [|o l IH]; intros m W D H; cbn [ins_all fold_left]; [exact W|].
  inversion D as [|a b F D' E]; subst.
  apply IH; [|exact D'|].
  - apply wf_ins; auto; cbn [ilo ihi]; [apply lower_le_upper|].
    intros y I. apply (H o y); auto. now left.
  - intros p y Ip Iy. apply in_ins in Iy. destruct Iy as [->|Iy].
    + cbn [ilo ihi]. rewrite Forall_forall in F. specialize (F p Ip). unfold dis in F. lia.
    + apply (H p y); auto. now right.
Qed.

Lemma length_ins {V} (x : iv V) m : length (ins x m) = S (length m).
Proof. induction m as [|z m IH]; cbn; [reflexivity|]. destruct (_ <? _); cbn; now rewrite ?IH. Qed.

Lemma Permutation_ins {V} (x : iv V) m : Permutation (ins x m) (x :: m).
Proof.
  induction m as [|z m IH]; cbn; [auto|]. destruct (_ <? _); [auto|].
  rewrite IH. apply perm_swap.
Qed.

Lemma Permutation_ins_all : forall l m,
  Permutation (ins_all l m) (map (fun o => IV (lower (fst o)) (upper (fst o)) (snd o)) l ++ m).
Proof.
  induction l as [|o l IH]; intros m; cbn [ins_all fold_left]; [auto|].
  fold (ins_all l (ins (IV (lower (fst o)) (upper (fst o)) (snd o)) m)).
  rewrite IH. cbn [map app]. rewrite Permutation_ins.
  symmetry. apply Permutation_middle.
Qed.

Lemma range_eqb_eq a b : range_eqb a b = true <-> a = b.
Proof.
  unfold range_eqb. destruct a, b; cbn. rewrite andb_true_iff, !Z.eqb_eq.
  split; [intros [-> ->]; reflexivity|intros E; inversion E; auto].
Qed.

(** Lookup of ascending bounds in a well-formed map. *)
Lemma vt_lookup_wf t s m b n : t s = Some m -> wf m -> rleft b <= rright b ->
  (vt_lookup t s b = Some n <-> In (IV (rleft b) (rright b) n) m).
Proof.
  intros E W A. unfold vt_lookup. rewrite E. unfold toPair; cbn [fst snd].
  replace (lower b) with (rleft b) by (unfold lower; lia).
  replace (upper b) with (rright b) by (unfold upper; lia).
  destruct (find _ _) as [x|] eqn:F.
  - apply find_some in F. destruct F as [I Q]. apply in_ivfind in I.
    apply range_eqb_eq in Q. destruct x as [lo hi v]; cbn [ilo ihi ival] in *.
    subst b. cbn [rleft rright] in *. split.
    + intros H; inversion H; subst. tauto.
    + intros H. f_equal. assert (X : IV lo hi v = IV lo hi n).
      { apply (same_bounds_wf _ _ m); try tauto. unfold same_bounds; cbn.
        now rewrite !Z.eqb_refl. }
      now inversion X.
  - split; [discriminate|]. intros I. exfalso.
    assert (J : In (IV (rleft b) (rright b) n) (ivfind (rleft b) (rright b) m))
      by (apply in_ivfind; cbn [ilo ihi]; auto).
    pose proof (find_none _ _ F _ J) as Q. cbn [ilo ihi] in Q.
    assert (X : range_eqb (Range (rleft b) (rright b)) b = true)
      by (apply range_eqb_eq; destruct b; reflexivity).
    congruence.
Qed.

(** * CutRegistry *)
Lemma in_ninsert x y l : In y (ninsert x l) <-> y = x \/ In y l.
Proof.
  induction l as [|z l IH]; cbn [ninsert]; [cbn; intuition|].
  destruct (x <=? z)%N; cbn [In]; [intuition|]. rewrite IH. intuition.
Qed.
Lemma in_nsort y l : In y (nsort l) <-> In y l.
Proof. induction l as [|x l IH]; cbn; [tauto|]. rewrite in_ninsert, IH. intuition. Qed.

Lemma ninsert_sorted x l : StronglySorted N.le l -> StronglySorted N.le (ninsert x l).
Proof.
  induction 1 as [|a l S IH F]; cbn [ninsert]; [constructor; constructor|].
  destruct (N.leb_spec x a) as [L|L].
  - constructor; [now constructor|]. constructor; [exact L|].
    apply Forall_forall. intros y I. rewrite Forall_forall in F. specialize (F y I). lia.
  - constructor; [exact IH|]. apply Forall_forall. intros y I. apply in_ninsert in I.
    rewrite Forall_forall in F. destruct I as [->|I]; [lia|auto].
Qed.
Lemma nsort_sorted l : StronglySorted N.le (nsort l).
Proof. induction l as [|x l IH]; cbn; [constructor|]. now apply ninsert_sorted. Qed.

Lemma nunique_cons x y r :
  nunique (x :: y :: r) = if (x =? y)%N then nunique (y :: r) else x :: nunique (y :: r).
Proof. reflexivity. Qed.

Lemma in_nunique z : forall l, In z (nunique l) <-> In z l.
Proof.
  induction l as [|x [|y r] IH]; [tauto|tauto|].
  rewrite nunique_cons. destruct (N.eqb_spec x y) as [->|D].
  - rewrite IH. cbn. intuition.
  - cbn [In]. rewrite IH. cbn. intuition.
Qed.

Lemma nunique_strict : forall l, StronglySorted N.le l -> StronglySorted N.lt (nunique l).
Proof.
  induction l as [|x [|y r] IH]; intros S.
  - constructor.
  - repeat constructor.
  - rewrite nunique_cons. inversion S as [|a b S' F]; subst.
    destruct (N.eqb_spec x y) as [->|D]; [auto|]. constructor; [auto|].
    apply Forall_forall. intros z I. apply (proj1 (in_nunique z (y :: r))) in I.
    inversion S' as [|a b S'' F']; subst. rewrite Forall_forall in F, F'.
    pose proof (F y (or_introl eq_refl)). destruct I as [<-|I]; [lia|].
    specialize (F' z I). lia.
Qed.

(** Two strictly increasing lists with the same elements are equal. *)
Lemma strict_ext : forall l1 l2, StronglySorted N.lt l1 -> StronglySorted N.lt l2 ->
  (forall x, In x l1 <-> In x l2) -> l1 = l2.
Proof.
  induction l1 as [|a l1 IH]; intros [|b l2] S1 S2 H.
  - reflexivity.
  - destruct (proj2 (H b)); now left.
  - destruct (proj1 (H a)); now left.
  - inversion S1 as [|? ? S1' F1]; inversion S2 as [|? ? S2' F2]; subst.
    rewrite Forall_forall in F1, F2.
    assert (a = b).
    { destruct (proj1 (H a) (or_introl eq_refl)) as [E|I]; [auto|].
      destruct (proj2 (H b) (or_introl eq_refl)) as [E|J]; [auto|].
      specialize (F1 b J). specialize (F2 a I). lia. }
    subst b. f_equal. apply IH; auto. intros x. split; intros I.
    + destruct (proj1 (H x) (or_intror I)) as [E|J]; [|auto].
      subst x. specialize (F1 a I). lia.
    + destruct (proj2 (H x) (or_intror I)) as [E|J]; [|auto].
      subst x. specialize (F2 a I). lia.
Qed.

Definition regl (g : registry) (s : nat) : list N := match g s with Some l => l | None => [] end.

Lemma addCuts_in width g s s' cuts c :
  In c (regl (addCuts width g s cuts) s') <->
  In c (regl g s') \/ (s = s' /\ In c cuts /\ (0 < c < width s)%N).
Proof.
  unfold addCuts, regl. destruct cuts as [|c0 r]; [cbn [In]; tauto|].
  set (cuts := c0 :: r) in *. clearbody cuts. cbv zeta. unfold upd.
  destruct (Nat.eqb_spec s' s) as [->|D].
  - rewrite in_nunique, in_nsort, in_app_iff, filter_In, andb_true_iff, !N.ltb_lt. tauto.
  - split; [auto|]. intros [H|(E & _)]; [auto|congruence].
Qed.

Lemma addCuts_strict width g s s' cuts :
  StronglySorted N.lt (regl g s') -> StronglySorted N.lt (regl (addCuts width g s cuts) s').
Proof.
  unfold addCuts, regl. destruct cuts as [|c0 r]; [auto|]. intros S. cbv zeta. unfold upd.
  destruct (Nat.eqb_spec s' s) as [->|D]; [|exact S].
  apply nunique_strict, nsort_sorted.
Qed.

Lemma cut_run_in width s c : forall ops g,
  In c (regl (cut_run width g ops) s) <->
  In c (regl g s) \/ exists cuts, In (s, cuts) ops /\ In c cuts /\ (0 < c < width s)%N.
Proof.
  induction ops as [|[s0 cuts0] ops IH]; intros g.
  - cbn [cut_run fold_left]. split; [auto|]. intros [H|(cuts & [] & _)]. exact H.
  - change (cut_run width g ((s0, cuts0) :: ops)) with (cut_run width (addCuts width g s0 cuts0) ops).
    rewrite IH, addCuts_in. split.
    + intros [[H|(-> & H)]|(cuts & I & H)]; [auto| |].
      * right. exists cuts0. split; [now left|exact H].
      * right. exists cuts. split; [now right|exact H].
    + intros [H|(cuts & [E|I] & H)]; [auto| |].
      * inversion E; subst. auto.
      * right. exists cuts. auto.
Qed.

Lemma cut_run_strict width s : forall ops g,
  StronglySorted N.lt (regl g s) -> StronglySorted N.lt (regl (cut_run width g ops) s).
Proof.
  induction ops as [|[s0 cuts0] ops IH]; intros g S; cbn [cut_run fold_left]; [exact S|].
  apply IH. now apply addCuts_strict.
Qed.

(** An entry exists exactly for the symbols named by a call with some cut. *)
Lemma cut_run_some width s : forall ops g,
  cutsFor (cut_run width g ops) s <> None <->
  (cutsFor g s <> None \/ exists cuts, In (s, cuts) ops /\ cuts <> []).
Proof.
  unfold cutsFor. induction ops as [|[s0 cuts0] ops IH]; intros g.
  - cbn [cut_run fold_left]. split; [auto|]. intros [H|(cuts & [] & _)]. exact H.
  - change (cut_run width g ((s0, cuts0) :: ops)) with (cut_run width (addCuts width g s0 cuts0) ops).
    rewrite IH. unfold addCuts. destruct cuts0 as [|c r].
    + split.
      * intros [H|(cuts & I & H)]; [auto|]. right. exists cuts. split; [now right|auto].
      * intros [H|(cuts & [E|I] & H)]; [auto| |right; exists cuts; auto].
        inversion E; subst. congruence.
    + cbv zeta. unfold upd. destruct (Nat.eqb_spec s s0) as [->|D].
      * split; intros _; [|left; discriminate]. right. exists (c :: r).
        split; [now left|discriminate].
      * split.
        -- intros [H|(cuts & I & H)]; [auto|]. right. exists cuts. split; [now right|auto].
        -- intros [H|(cuts & [E|I] & H)]; [auto| |right; exists cuts; auto].
           inversion E; subst. congruence.
Qed.

(** * The difference is well formed *)
Definition apart_wf {V} (m : list (iv V)) : Prop := nonempty_ivs m /\ StronglySorted apart m.

Lemma apart_wf_cons {V} (x : iv V) m :
  apart_wf (x :: m) <-> ilo x <= ihi x /\ (forall y, In y m -> ihi x + 1 < ilo y) /\ apart_wf m.
Proof.
  split.
  - intros [N S]. inversion S as [|? ? S' F]; subst. rewrite Forall_forall in F.
    split; [apply N; now left|]. split; [exact F|].
    split; [|exact S']. intros y I. apply N. now right.
  - intros (A & B & N & S). split.
    + intros y [<-|I]; auto.
    + constructor; [exact S|]. apply Forall_forall. exact B.
Qed.

Lemma apart_wf_filter {V} (p : iv V -> bool) m : apart_wf m -> apart_wf (filter p m).
Proof.
  induction m as [|z m IH]; intros W; [exact W|]. apply apart_wf_cons in W.
  destruct W as (Wz & Wb & W). cbn [filter]. destruct (p z); [|auto].
  apply apart_wf_cons. split; [auto|]. split; [|auto].
  intros y I. apply filter_In in I. apply Wb. tauto.
Qed.

Lemma apart_wf_ins {V} (x : iv V) m :
  apart_wf m -> ilo x <= ihi x ->
  (forall y, In y m -> ihi x + 1 < ilo y \/ ihi y + 1 < ilo x) -> apart_wf (ins x m).
Proof.
  induction m as [|z m IH]; intros W Hx D; cbn [ins].
  - apply apart_wf_cons. split; [auto|]. split; [intros y []|exact W].
  - apply apart_wf_cons in W. destruct W as (Wz & Wb & W).
    destruct (Z.ltb_spec (ilo x) (ilo z)) as [L|L].
    + apply apart_wf_cons. split; [auto|]. split.
      * intros y I. destruct (D y I) as [A|A]; [exact A|].
        destruct I as [<-|I]; [lia|]. specialize (Wb y I). pose proof (proj1 W y I). lia.
      * apply apart_wf_cons. auto.
    + apply apart_wf_cons. split; [auto|]. split.
      * intros y I. apply in_ins in I. destruct I as [->|I]; [|auto].
        destruct (D z (or_introl eq_refl)); lia.
      * apply IH; auto. intros y I. apply D. now right.
Qed.

Lemma apart_two {V} (x y : iv V) m : apart_wf m -> In x m -> In y m ->
  x = y \/ ihi x + 1 < ilo y \/ ihi y + 1 < ilo x.
Proof.
  induction m as [|z m IH]; intros W Ix Iy; [easy|]. apply apart_wf_cons in W.
  destruct W as (Wz & Wb & W). destruct Ix as [<-|Ix], Iy as [<-|Iy]; auto.
Qed.

Lemma apart_wf_union {V} (x : iv V) m :
  apart_wf m -> ilo x <= ihi x -> apart_wf (ivunion x m).
Proof.
  intros W Hx. unfold ivunion. set (near := filter (touch (ilo x) (ihi x)) m).
  apply apart_wf_ins.
  - now apply apart_wf_filter.
  - cbn [ilo ihi]. pose proof (fold_min_le (map ilo near) (ilo x)).
    pose proof (fold_max_ge (map ihi near) (ihi x)). lia.
  - intros y I. apply filter_In in I. destruct I as [I T]. cbn [ilo ihi].
    assert (T' : ~ (ilo y <= ihi x + 1 /\ ilo x <= ihi y + 1)).
    { rewrite <- touch_true. destruct (touch _ _ y); [discriminate T|discriminate]. }
    assert (HN : forall z, In z near -> In z m /\ ilo z <= ihi x + 1 /\ ilo x <= ihi z + 1).
    { intros z J. apply filter_In in J. rewrite touch_true in J. exact J. }
    pose proof (proj1 W y I) as Hy.
    destruct (Z_lt_le_dec (ihi x + 1) (ilo y)) as [L|L].
    + left. destruct (fold_max_is (map ihi near) (ihi x)) as [E|E]; [lia|].
      apply in_map_iff in E. destruct E as (z & E & J). rewrite <- E.
      destruct (HN z J) as (A & B & C). pose proof (proj1 W z A).
      destruct (apart_two z y m W A I) as [->|[Q|Q]]; lia.
    + right. destruct (fold_min_is (map ilo near) (ilo x)) as [E|E]; [lia|].
      apply in_map_iff in E. destruct E as (z & E & J). rewrite <- E.
      destruct (HN z J) as (A & B & C). pose proof (proj1 W z A).
      destruct (apart_two z y m W A I) as [->|[Q|Q]]; lia.
Qed.

Lemma apart_finish {V} en (v : V) : forall second c res,
  apart_wf res -> c <= en -> apart_wf (finish en v (subtract_loop en v second c res)).
Proof.
  induction second as [|r rest IH]; intros c res N C; cbn [subtract_loop].
  - unfold finish. cbn [fst snd]. destruct (Z.leb_spec c en); [|auto].
    apply apart_wf_union; auto.
  - destruct (Z.ltb_spec (ihi r) c); [auto|]. destruct (Z.ltb_spec en (ilo r)); [auto|].
    cbv zeta. set (res1 := if c <? ilo r then _ else _).
    assert (N1 : apart_wf res1).
    { subst res1. destruct (Z.ltb_spec c (ilo r)); [|auto]. apply apart_wf_union; auto.
      cbn [ilo ihi]. lia. }
    destruct (Z.leb_spec en (Z.max c (ihi r + 1))).
    + unfold finish. cbn [fst snd].
      destruct (Z.leb_spec (Z.max c (ihi r + 1)) en); [|auto]. apply apart_wf_union; auto.
    + apply IH; auto. lia.
Qed.

Lemma difference_wf {V} (first second : list (iv V)) :
  wf first -> nonempty_ivs (difference first second) /\ disjoint_ivs (difference first second).
Proof.
  intros W. apply wf_spec. unfold difference. destruct second as [|s0 rest]; [exact W|].
  set (second := s0 :: rest). clearbody second.
  assert (G : forall first res, nonempty_ivs first -> apart_wf res ->
     apart_wf (fold_left (fun r x => subtractSingle r x second) first res)).
  { clear. induction first as [|x first IH]; intros res N R; cbn [fold_left]; [exact R|].
    apply IH; [intros y I; apply N; now right|].
    rewrite subtractSingle_finish. apply apart_finish; [exact R|]. apply N. now left. }
  destruct (G first [] (proj1 W)) as [A B].
  { split; [intros x []|constructor]. }
  split; [exact A|]. clear - B A. induction B as [|a l B IH F]; constructor.
  - apply IH. intros x I. apply A. now right.
  - apply Forall_forall. intros y I. rewrite Forall_forall in F. specialize (F y I).
    unfold apart, below in *. lia.
Qed.
