From Coq Require Import Ascii String.
From Verif Require Import Base M_Range M_Netlist S_Text M_Text P_Text M_Serial M_Cli P_Cli M_Tool S_Tool P_Tool.
Notation length := List.length.

Lemma handled_iff w s : handled w (s_content s) = true <-> Wanted w s.
Proof.
  unfold Wanted. destruct w, (s_content s); cbn; split; intros H; try discriminate; eauto 8;
    repeat (destruct H as [H|H]); repeat (destruct H as (? & H)); discriminate.
Qed.
Lemma name_iff names s : nameMatches names (s_path s) = true <-> NamePasses names s.
Proof.
  unfold nameMatches, NamePasses. destruct names as [|q names]; [split; auto|].
  rewrite existsb_exists. split.
  - intros (x & I & H). apply matches_iff in H. destruct H as (ts & H). right. exists x, ts. tauto.
  - intros [H|(x & ts & I & H)]; [discriminate|]. exists x. rewrite matches_iff. eauto.
Qed.
Definition walks (enter : bool) (w : what) (s : symbol) : bool :=
  negb (handled w (s_content s)) && match s_kind s with SLeaf => false | SInst true => enter | _ => true end.
Lemma walks_iff enter w s : walks enter w s = true <-> Entered enter w s.
Proof.
  unfold walks, Entered. rewrite andb_true_iff, negb_true_iff, <- handled_iff.
  destruct (handled w (s_content s)), (s_kind s) as [[]| |], enter; intuition congruence.
Qed.
Lemma visit_pre enter w s : visit enter w s = filter (fun x => handled w (s_content x)) (pre (walks enter w) s).
Proof.
  induction s as [s IH] using symbol_rect'. rewrite pre_eq. cbn [filter].
  assert (K : flat_map (visit enter w) (s_members s) =
              filter (fun x => handled w (s_content x)) (flat_map (pre (walks enter w)) (s_members s))).
  { rewrite flat_map_filter. clear - IH. induction (s_members s) as [|m l IHl]; cbn; auto. rewrite IH by now left.
    f_equal. apply IHl. intros; apply IH; now right. }
  assert (Ew : walks enter w s = negb (handled w (s_content s)) && match s_kind s with SLeaf => false | SInst true => enter | _ => true end) by reflexivity.
  rewrite Ew. destruct s as [i p l c k ms]. cbn [visit s_content s_kind s_members] in *.
  destruct (handled w c); cbn [negb andb]; [reflexivity|]. destruct k as [[]| |]; cbn [filter]; auto. destruct enter; auto.
Qed.
Lemma items_eq enter w names l : items enter w names l =
  filter (fun s => handled w (s_content s) && nameMatches names (s_path s)) (flat_map (pre (walks enter w)) l).
Proof.
  unfold items. induction l as [|s l IH]; cbn [flat_map]; [reflexivity|]. rewrite !filter_app', IH. f_equal.
  rewrite visit_pre. clear. induction (pre (walks enter w) s) as [|a l IH]; cbn [filter]; [reflexivity|].
  destruct (handled w (s_content a)); cbn [filter andb]; [|exact IH]. destruct (nameMatches _ _); now rewrite IH.
Qed.
Lemma items_listed enter w names roots : Listed enter w names roots (items enter w names roots).
Proof.
  exists (flat_map (pre (walks enter w)) roots). split; [apply pres_ok, walks_iff|]. rewrite items_eq. apply kept_filter.
  intros a. rewrite andb_true_iff, handled_iff, name_iff. tauto.
Qed.
Lemma listed_items enter w names roots l : Listed enter w names roots l -> l = items enter w names roots.
Proof.
  intros (all & Pr & K). apply (pres_det' _ _ (walks_iff enter w)) in Pr. subst all. rewrite items_eq.
  apply (kept_det _ (fun s => handled w (s_content s) && nameMatches names (s_path s))) in K; auto.
  intros a. rewrite andb_true_iff, handled_iff, name_iff. tauto.
Qed.

(** ** Rows and JSON *)
Lemma item_rows_ok drivers w s : Wanted w s -> ItemRows drivers w s (item_rows drivers w s).
Proof.
  intros W. unfold item_rows. destruct w.
  - destruct W as (d & n & t & E). rewrite E. cbn. now constructor.
  - destruct W as [(t & n & E)|(n & t & k & E)]; rewrite E; now constructor.
  - assert (X : ItemRows drivers Drivers s ([s_path s; []; []; []; location_str (s_loc s)] ::
        map (fun d => [arrow; range_toString (v_bounds d); v_text d; driver_kind d; location_str (v_loc d)]) (drivers s))).
    { apply IR_value; auto. induction (drivers s) as [|d l IH]; cbn; constructor; auto. }
    destruct (s_content s); exact X.
Qed.
Lemma item_json_rows drivers w s : Wanted w s -> json_rows w (item_json drivers w s) = item_rows drivers w s.
Proof.
  intros W. unfold item_rows, item_json. destruct w.
  - destruct W as (d & n & t & E). rewrite E. reflexivity.
  - destruct W as [(t & n & E)|(n & t & k & E)]; rewrite E; reflexivity.
  - assert (X : json_rows Drivers (JObj [(lit "value", JStr (s_path s)); (lit "location", JStr (location_str (s_loc s)));
            (lit "drivers", JArr (map driver_json (drivers s)))]) =
        [s_path s; []; []; []; location_str (s_loc s)] ::
        map (fun d => [arrow; range_toString (v_bounds d); v_text d; driver_kind d; location_str (v_loc d)]) (drivers s)).
    { cbn. f_equal. rewrite map_map. apply map_ext. reflexivity. }
    destruct (s_content s); exact X.
Qed.
Lemma kept_all {A} (P : A -> Prop) l r : Kept P l r -> Forall P r.
Proof. induction 1; auto. Qed.
Lemma items_wanted enter w names roots : Forall (Wanted w) (items enter w names roots).
Proof.
  destruct (items_listed enter w names roots) as (all & _ & K). apply kept_all in K. eapply Forall_impl; [|exact K]. intros a Ha; exact (proj1 Ha).
Qed.
Lemma rows_all drivers w l : Forall (Wanted w) l -> exists rss, Forall2 (ItemRows drivers w) l rss /\
  flat_map (item_rows drivers w) l = concat rss /\ Forall2 (fun j rs => json_rows w j = rs) (map (item_json drivers w) l) rss.
Proof.
  induction 1 as [|s l W F (rss & A & B & C)]; [exists []; repeat split; constructor|].
  exists (item_rows drivers w s :: rss). cbn [flat_map concat map]. rewrite B. repeat split; constructor; auto.
  - now apply item_rows_ok.
  - now apply item_json_rows.
Qed.

(** ** C94 *)
Definition all (s : symbol) : list symbol := pre (fun _ => true) s.
Lemma all_eq s : all s = s :: flat_map all (s_members s).
Proof. unfold all. now rewrite pre_eq. Qed.
Lemma whole_all s l : Whole s l <-> l = all s.
Proof.
  split.
  - intros H. apply (pre_det (fun _ => True) (fun _ => true)); auto. tauto.
  - intros ->. apply (pre_ok (fun _ => True) (fun _ => true)). tauto.
Qed.
Lemma inside_iff s : forall x, Inside s x <-> In x (all s).
Proof.
  induction s as [s IH] using symbol_rect'. intros x. rewrite all_eq. cbn [In]. rewrite in_flat_map. split.
  - intros H. inversion H; subst; [now left|]. right. exists m. split; auto. now apply IH.
  - intros [<-|(m & I & H)]; [constructor|]. apply IH in H; auto. eapply Inside_member; eauto.
Qed.
Lemma inside_trans a b c : Inside a b -> Inside b c -> Inside a c.
Proof. induction 1; auto. intros K. eapply Inside_member; eauto. Qed.
Lemma inside_split s r : Inside s r -> exists a b, all s = a ++ all r ++ b.
Proof.
  induction 1 as [s|s m x I H (a & b & E)].
  - exists [], []. now rewrite app_nil_r.
  - apply in_split in I. destruct I as (u & v & Em). rewrite all_eq, Em, flat_map_app. cbn [flat_map]. rewrite E.
    exists (s :: flat_map all u ++ a), (b ++ flat_map all v). cbn [app]. now rewrite <- !app_assoc.
Qed.
Lemma nodup_r {A} (a b : list A) : NoDup (a ++ b) -> NoDup b.
Proof. induction a as [|x a IH]; cbn; auto. intros H. inversion H; auto. Qed.
Lemma nodup_l {A} (a b : list A) : NoDup (a ++ b) -> NoDup a.
Proof.
  induction a as [|x a IH]; cbn; [constructor|]. intros H. inversion H; subst. constructor; auto.
  intros K. apply H2. apply in_app_iff. now left.
Qed.
Lemma nodup_mid {A} (a b c : list A) : NoDup (a ++ b ++ c) -> NoDup b.
Proof. intros H. apply nodup_r in H. now apply nodup_l in H. Qed.
Lemma inside_nodup s r : Inside s r -> NoDup (map s_id (all s)) -> NoDup (map s_id (all r)).
Proof. intros H N. destruct (inside_split _ _ H) as (a & b & E). rewrite E, !map_app in N. eapply nodup_mid; eauto. Qed.
Lemma nodup_map_inj {A B} (f : A -> B) l x y : NoDup (map f l) -> In x l -> In y l -> f x = f y -> x = y.
Proof.
  induction l as [|a l IH]; cbn; intros N Ix Iy E; [destruct Ix|]. inversion N as [|? ? N1 N2]; subst.
  destruct Ix as [<-|Ix], Iy as [<-|Iy]; auto.
  - destruct N1. rewrite E. now apply in_map.
  - destruct N1. rewrite <- E. now apply in_map.
Qed.
Lemma nested s : NoDup (map s_id (all s)) -> forall r1 r2 x, Inside s r1 -> Inside s r2 -> Inside r1 x -> Inside r2 x ->
  Inside r1 r2 \/ Inside r2 r1.
Proof.
  induction s as [s IH] using symbol_rect'. intros N r1 r2 x H1 H2 X1 X2.
  inversion H1 as [|? m1 ? I1 K1]; subst; [now left|]. inversion H2 as [|? m2 ? I2 K2]; subst; [now right|].
  assert (E : m1 = m2).
  { rewrite all_eq in N. cbn in N. inversion N as [|? ? _ N']; subst. clear N IH H1 H2.
    assert (Y1 : In x (all m1)) by (apply inside_iff; eapply inside_trans; eauto).
    assert (Y2 : In x (all m2)) by (apply inside_iff; eapply inside_trans; eauto).
    clear - N' I1 I2 Y1 Y2. induction (s_members s) as [|m l IH]; [destruct I1|].
    cbn [flat_map] in N'. rewrite map_app in N'.
    assert (D : forall y, In y (all m) -> In y (flat_map all l) -> False).
    { intros y A B. apply (in_map s_id) in A. apply (in_map s_id) in B. clear - N' A B.
      induction (map s_id (all m)) as [|z q IH]; [destruct A|]. cbn in N'. inversion N'; subst.
      destruct A as [->|A]; [|auto]. apply H1. apply in_app_iff. now right. }
    destruct I1 as [<-|I1], I2 as [<-|I2]; auto.
    - destruct (D x Y1). apply in_flat_map. eauto.
    - destruct (D x Y2). apply in_flat_map. eauto.
    - apply IH; auto. now apply nodup_r in N'. }
  subst m2. eapply IH; eauto. eapply inside_nodup; [|exact N]. eapply Inside_member; eauto. constructor.
Qed.

Inductive Sub {A} : list A -> list A -> Prop :=
| sub_nil : Sub [] []
| sub_take a l r : Sub l r -> Sub (a :: l) (a :: r)
| sub_skip a l r : Sub l r -> Sub l (a :: r).
Lemma sub_refl {A} (l : list A) : Sub l l.
Proof. induction l; constructor; auto. Qed.
Lemma sub_none {A} (l : list A) : Sub [] l.
Proof. induction l; constructor; auto. Qed.
Lemma sub_app {A} (a b c d : list A) : Sub a b -> Sub c d -> Sub (a ++ c) (b ++ d).
Proof. induction 1; intros; cbn; auto; constructor; auto. Qed.
Lemma sub_in {A} (a b : list A) x : Sub a b -> In x a -> In x b.
Proof. induction 1; cbn; tauto. Qed.
Lemma sub_nodup {A B} (f : A -> B) a b : Sub a b -> NoDup (map f b) -> NoDup (map f a).
Proof.
  induction 1 as [|x l r H IH|x l r H IH]; cbn; auto; intros N; inversion N; subst; auto. constructor; auto.
  intros K. apply H2. apply in_map_iff in K. destruct K as (y & E & K). rewrite <- E. apply in_map. eapply sub_in; eauto.
Qed.
Lemma sub_filter {A} f (l : list A) : Sub (filter f l) l.
Proof. induction l as [|a l IH]; cbn; [constructor|]. destruct (f a); constructor; auto. Qed.
Lemma sub_trans {A} (a b c : list A) : Sub a b -> Sub b c -> Sub a c.
Proof.
  intros H K. revert a H. induction K; intros a0 H; auto.
  - inversion H; subst; constructor; auto.
  - constructor; auto.
Qed.
Lemma pre_sub o s : Sub (pre o s) (all s).
Proof.
  induction s as [s IH] using symbol_rect'. rewrite pre_eq, all_eq. constructor. destruct (o s); [|apply sub_none].
  induction (s_members s) as [|m l IHl]; cbn; [constructor|]. apply sub_app; [apply IH; now left|]. apply IHl.
  intros; apply IH; now right.
Qed.

Section Once.
Variable root : symbol.
Hypothesis D : NoDup (map s_id (all root)).
Variable o : symbol -> bool.
Variable f : symbol -> bool.
Lemma count_one r s : Inside root r -> Inside root s -> f s = true ->
  count_occ Nat.eq_dec (map s_id (filter f (pre o r))) (s_id s) = if existsb (fun x => Nat.eqb (s_id x) (s_id s)) (pre o r) then 1 else 0.
Proof.
  intros Hr Hs Fs.
  assert (N : NoDup (map s_id (filter f (pre o r)))).
  { eapply sub_nodup; [eapply sub_trans; [apply sub_filter|apply pre_sub]|]. eapply inside_nodup; eauto. }
  assert (X : forall x, In x (pre o r) -> s_id x = s_id s -> x = s).
  { intros x I E. eapply nodup_map_inj; [exact D| | |exact E]; [|now apply inside_iff].
    apply inside_iff. eapply inside_trans; [exact Hr|]. apply inside_iff. eapply sub_in; [apply pre_sub|exact I]. }
  destruct (existsb _ _) eqn:E.
  - apply existsb_exists in E. destruct E as (x & I & E). apply Nat.eqb_eq in E. apply X in E as E'; auto. subst x.
    apply NoDup_count_occ'; auto. apply in_map. apply filter_In. auto.
  - apply count_occ_not_In. intros I. apply in_map_iff in I. destruct I as (x & Ex & I). apply filter_In in I. destruct I as [I _].
    assert (K : existsb (fun x => Nat.eqb (s_id x) (s_id s)) (pre o r) = true).
    { apply existsb_exists. exists x. split; auto. now apply Nat.eqb_eq. }
    congruence.
Qed.
Lemma count_all s roots : (forall r, In r roots -> Inside root r) -> Inside root s -> f s = true ->
  count_occ Nat.eq_dec (map s_id (filter f (flat_map (pre o) roots))) (s_id s) =
  length (filter (fun r => existsb (fun x => Nat.eqb (s_id x) (s_id s)) (pre o r)) roots).
Proof.
  intros Hr Hs Fs. induction roots as [|r roots IH]; [reflexivity|]. cbn [flat_map filter].
  rewrite filter_app', map_app, count_occ_app, count_one; auto; [|apply Hr; now left].
  rewrite IH by (intros; apply Hr; now right). destruct (existsb _ _); reflexivity.
Qed.
Lemma seen_iff r s : Inside root r -> Inside root s ->
  (existsb (fun x => Nat.eqb (s_id x) (s_id s)) (pre o r) = true <-> In s (pre o r)).
Proof.
  intros Hr Hs. rewrite existsb_exists. split.
  - intros (x & I & E). apply Nat.eqb_eq in E. assert (x = s); [|now subst].
    eapply nodup_map_inj; [exact D| | |exact E]; [|now apply inside_iff].
    apply inside_iff. eapply inside_trans; [exact Hr|]. apply inside_iff. eapply sub_in; [apply pre_sub|exact I].
  - intros I. exists s. split; auto. apply Nat.eqb_refl.
Qed.
Lemma once roots : (forall r, In r roots -> Inside root r) -> NoDup (map s_id roots) ->
  (forall a b, In a roots -> In b roots -> Inside a b -> a = b) ->
  NoDup (map s_id (filter f (flat_map (pre o) roots))).
Proof.
  intros Hr N A. apply (NoDup_count_occ Nat.eq_dec). intros n.
  destruct (in_dec Nat.eq_dec n (map s_id (filter f (flat_map (pre o) roots)))) as [I|I].
  2:{ apply (count_occ_not_In Nat.eq_dec) in I. rewrite I. lia. }
  apply in_map_iff in I. destruct I as (s & <- & I). apply filter_In in I. destruct I as [I Fs]. apply in_flat_map in I.
  destruct I as (r0 & Ir & Is).
  assert (Hs : Inside root s).
  { eapply inside_trans; [apply Hr; exact Ir|]. apply inside_iff. eapply sub_in; [apply pre_sub|exact Is]. }
  rewrite count_all; auto.
  assert (U : forall r, In r (filter (fun r => existsb (fun x => Nat.eqb (s_id x) (s_id s)) (pre o r)) roots) -> r = r0).
  { intros r I. apply filter_In in I. destruct I as [I K]. apply seen_iff in K; auto.
    assert (S1 : Inside r s) by (apply inside_iff; eapply sub_in; [apply pre_sub|exact K]).
    assert (S2 : Inside r0 s) by (apply inside_iff; eapply sub_in; [apply pre_sub|exact Is]).
    destruct (nested root D r r0 s (Hr r I) (Hr r0 Ir) S1 S2) as [H|H]; [now apply A|symmetry; now apply A]. }
  assert (N2 : NoDup (filter (fun r => existsb (fun x => Nat.eqb (s_id x) (s_id s)) (pre o r)) roots)).
  { apply NoDup_filter'. now apply NoDup_map_inv in N. }
  destruct (filter _ roots) as [|a [|b l]]; cbn; try lia. exfalso. inversion N2; subst. apply H1.
  rewrite (U a) by (now left). rewrite (U b) by (right; now left). now left.
Qed.
End Once.

Lemma firsts_det seen l r : Firsts seen l r -> r = dedup seen l.
Proof.
  induction 1 as [|seen s l r H F IH|seen s l r H F IH]; cbn [dedup]; auto.
  - rewrite <- mem_iff in H. destruct (existsb _ _); [congruence|]. now f_equal.
  - apply mem_iff in H. now rewrite H.
Qed.
Lemma dedup_nodup l : forall seen, NoDup (map s_id (dedup seen l)).
Proof.
  induction l as [|s l IH]; intros seen; cbn [dedup]; [constructor|]. destruct (existsb _ _); auto. cbn [map]. constructor; auto.
  rewrite dedup_ids. cbn [In]. tauto.
Qed.
Lemma dedup_in l : forall seen s, In s (dedup seen l) -> In s l.
Proof.
  induction l as [|x l IH]; intros seen s; cbn [dedup]; auto. destruct (existsb _ _); cbn [In]; [eauto|]. intros [<-|I]; eauto.
Qed.
Lemma answers_inside root lookupName x l s : (forall y t, lookupName y = Some t -> Inside root t) ->
  Answers root lookupName x l -> In s l -> Inside root s.
Proof.
  intros L A I. destruct (hasGlobChar x) eqn:G.
  - apply (answers_found _ _ x l G) in A. subst l. apply filter_In in I. destruct I as [I _]. apply in_flat_map in I.
    destruct I as (m & Im & I). eapply Inside_member; [exact Im|]. apply inside_iff. eapply sub_in; [apply pre_sub|exact I].
  - apply (answers_name _ _ x l G) in A. destruct A as (t & A & ->). destruct I as [<-|[]]. eauto.
Qed.
Lemma selected_inside root lookupName scopes ls sel : (forall y t, lookupName y = Some t -> Inside root t) ->
  Forall2 (Answers root lookupName) scopes ls -> Firsts [] (concat ls) sel ->
  NoDup (map s_id sel) /\ forall s, In s sel -> Inside root s.
Proof.
  intros L F K. apply firsts_det in K. subst sel. split; [apply dedup_nodup|]. intros s I. apply dedup_in in I.
  apply in_concat in I. destruct I as (l & Il & I). revert Il. induction F as [|x l0 xs ls A F IH]; [intros []|].
  intros [<-|Il]; auto. eapply answers_inside; eauto.
Qed.
