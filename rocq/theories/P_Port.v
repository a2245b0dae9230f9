(** Proofs about ports and their connections. *)
From Coq Require Import Sorted.
From Verif Require Import Base M_Graph M_Range M_Netlist M_Annot M_Interval M_Heap M_Drivers M_Pending M_DFA M_Builder M_Slice M_Port
  S_Interval S_Drivers S_DFA S_Builder S_Slice S_Port P_Interval P_Heap P_Drivers P_DriversX P_DFA P_DFA2 P_Builder P_Slice P_Slice2 P_Slice3.

(** * Segments of a driver *)
Lemma cut_at_spec : forall cs prev hi, StronglySorted lt cs -> (forall c, In c cs -> prev < c < hi) -> prev < hi ->
  seg_tiled prev (map (fun s => (fst s, snd s + 1)) (cut_at prev cs hi)) hi /\
  (forall s, In s (cut_at prev cs hi) -> prev <= fst s <= snd s /\ snd s < hi) /\
  (forall s c, In s (cut_at prev cs hi) -> In c cs -> ~ fst s < c <= snd s) /\
  (forall s, In s (cut_at prev cs hi) -> (fst s = prev \/ In (fst s) cs) /\ (snd s + 1 = hi \/ In (snd s + 1) cs)).
Proof.
  induction cs as [|c cs IH]; intros prev hi S B L; cbn [cut_at map seg_tiled fst snd].
  - split; [lia|]. split; [intros s [<-|[]]; cbn; lia|]. split; [intros s c _ []|]. intros s [<-|[]]. cbn. lia.
  - inversion S as [|? ? S1 F]; subst. rewrite Forall_forall in F. pose proof (B c (or_introl eq_refl)) as Bc.
    destruct (IH c hi S1) as (T & A & N & E); [|lia|].
    { intros d I. pose proof (F d I). pose proof (B d (or_intror I)). lia. }
    split; [|split; [|split]].
    + replace (c - 1 + 1) with c by lia. split; [reflexivity|]. split; [lia|exact T].
    + intros s [<-|I]; cbn; [lia|]. specialize (A s I). lia.
    + intros s d [<-|I] [<-|J]; cbn.
      * lia.
      * pose proof (F d J). lia.
      * specialize (A s I). lia.
      * apply N; auto.
    + intros s [<-|I].
      * cbn. split; [now left|]. right. left. lia.
      * destruct (E s I) as [[->|J] [K|K]]; split; try (now left); right; (now left) || now right.
Qed.

Lemma segments_spec h lo hi : lo <= hi -> (forall hs, h = Some hs -> StronglySorted lt hs) ->
  seg_tiled lo (map (fun s => (fst s, snd s + 1)) (port_segments h lo hi)) (hi + 1) /\
  (forall s, In s (port_segments h lo hi) -> lo <= fst s <= snd s /\ snd s <= hi) /\
  (forall s hs c, In s (port_segments h lo hi) -> h = Some hs -> In c hs -> ~ fst s < c <= snd s) /\
  (forall s, In s (port_segments h lo hi) ->
     (fst s = lo \/ exists hs, h = Some hs /\ In (fst s) hs) /\ (snd s = hi \/ exists hs, h = Some hs /\ In (snd s + 1) hs)).
Proof.
  intros L Sh. unfold port_segments. destruct h as [hs|].
  - pose proof (Sh hs eq_refl) as S.
    assert (Q : forall c, In c (lower_until (hi + 1) (upper_from lo hs)) <-> (In c hs /\ lo < c) /\ c < hi + 1).
    { intros c. rewrite in_lower by now apply sorted_upper. now rewrite in_upper by exact S. }
    destruct (cut_at_spec (lower_until (hi + 1) (upper_from lo hs)) lo (hi + 1)) as (T & A & N & E).
    + apply sorted_lower, sorted_upper, S.
    + intros c I. apply Q in I. lia.
    + lia.
    + split; [exact T|]. split; [intros s I; specialize (A s I); lia|]. split.
      * intros s hs' c I [= <-] J B. pose proof (A s I). apply (N s c I); [|exact B]. apply Q. split; [split; [exact J|lia]|lia].
      * intros s I. destruct (E s I) as [J K]. split.
        -- destruct J as [J|J]; [now left|]. right. exists hs. split; [reflexivity|]. apply Q in J. apply J.
        -- destruct K as [K|K]; [left; lia|]. right. exists hs. split; [reflexivity|]. apply Q in K. apply K.
  - cbn. split; [lia|]. split; [intros s [<-|[]]; cbn; lia|]. split; [intros s hs c _ E; discriminate|].
    intros s [<-|[]]. cbn. auto.
Qed.

Lemma segs_cover : forall gs lo hi k, seg_tiled lo gs hi -> lo <= k < hi -> exists g, In g gs /\ fst g <= k < snd g.
Proof.
  induction gs as [|g gs IH]; intros lo hi k T K; cbn in T; [lia|]. destruct T as (A & B & T).
  destruct (Nat.lt_ge_cases k (snd g)) as [Q|Q]; [exists g; split; [now left|lia]|].
  destruct (IH (snd g) hi k T) as (g' & I & H); [lia|]. exists g'. split; [now right|exact H].
Qed.

Lemma segs_apart : forall gs lo hi, seg_tiled lo gs hi -> forall p x q y r, gs = p ++ x :: q ++ y :: r -> snd x <= fst y.
Proof.
  assert (Le : forall gs lo hi, seg_tiled lo gs hi -> lo <= hi /\ forall y, In y gs -> lo <= fst y).
  { induction gs as [|g gs IH]; intros lo hi T; cbn in T; [split; [lia|intros y []]|]. destruct T as (A & B & T).
    destruct (IH _ _ T) as [L M]. split; [lia|]. intros y [<-|I]; [lia|]. specialize (M y I). lia. }
  intros gs lo hi T p. revert gs lo hi T. induction p as [|g p IH]; intros gs lo hi T x q y r ->; cbn [app seg_tiled] in T.
  - destruct T as (_ & _ & T). destruct (Le _ _ _ T) as [_ M]. apply M, in_or_app. right. now left.
  - destruct T as (_ & _ & T). eapply IH; [exact T|reflexivity].
Qed.

(** * Port nodes *)
Definition flat (h : option (list nat)) (ds : list (nat * nat * bool)) : list (nat * nat * bool) :=
  flat_map (fun d => map (fun s => (fst s, snd s, snd d)) (port_segments h (fst (fst d)) (snd (fst d)))) ds.
Fixpoint make_all (s : bld) (port sy : nat) (l : list (nat * nat * bool)) : dres bld :=
  match l with
  | [] => DOk s
  | (lo, hi, input) :: r =>
      let '(s1, n) := createPort s port (zrange lo hi) in
      do s2 <- (if input : bool then baddDrivers s1 sy (zrange lo hi) [n] false else DOk s1);
      make_all s2 port sy r
  end.

Lemma make_ports_all port sy (input : bool) : forall segs s,
  make_ports s port sy input segs = make_all s port sy (map (fun x => (fst x, snd x, input)) segs).
Proof.
  induction segs as [|[lo hi] r IH]; intros s; cbn [make_ports make_all map fst snd]; [reflexivity|].
  destruct (createPort s port (zrange lo hi)) as [s1 n].
  destruct (if input then _ else _) as [s2|e]; cbn [dbind]; [apply IH|reflexivity].
Qed.
Lemma make_all_app port sy : forall a b s,
  make_all s port sy (a ++ b) = dbind (make_all s port sy a) (fun s1 => make_all s1 port sy b).
Proof.
  induction a as [|[[lo hi] x] a IH]; intros b s; cbn [app make_all]; [reflexivity|].
  destruct (createPort s port (zrange lo hi)) as [s1 n].
  destruct (if x then _ else _) as [s2|e]; cbn [dbind]; [apply IH|reflexivity].
Qed.
Lemma make_drivers_all h port sy : forall ds s, make_drivers h s port sy ds = make_all s port sy (flat h ds).
Proof.
  induction ds as [|[[lo hi] x] ds IH]; intros s; cbn [make_drivers flat flat_map fst snd]; [reflexivity|].
  rewrite make_all_app, make_ports_all. destruct (make_all s port sy _) as [s1|e]; cbn [dbind]; [apply IH|reflexivity].
Qed.

(** The calls on the driver map of the internal symbol, the nodes. *)
Fixpoint port_calls (n : nat) (l : list (nat * nat * bool)) : list call :=
  match l with
  | [] => []
  | (lo, hi, x) :: r => (if x : bool then [(zrange lo hi, [n], false)] else []) ++ port_calls (S n) r
  end.
Fixpoint port_ops (port n : nat) (l : list (nat * nat * bool)) : list (nat * range * nat) :=
  match l with
  | [] => []
  | (lo, hi, _) :: r => (port, zrange lo hi, n) :: port_ops port (S n) r
  end.
Definition dmof (s : bld) (sy : nat) : dmap := match bdm s sy with Some d => d | None => dm_empty end.

Lemma make_all_fields port sy : forall l s d, run_calls (dmof s sy) (port_calls (bnext s) l) = DOk d ->
  exists s', make_all s port sy l = DOk s' /\ bnext s' = bnext s + length l /\
    bnodes s' = bnodes s ++ map (fun o => (snd o, BPort (fst (fst o)) (snd (fst o)))) (port_ops port (bnext s) l) /\
    bvt s' = vt_run (bvt s) (port_ops port (bnext s) l) /\
    dmof s' sy = d /\ (forall sy', sy' <> sy -> bdm s' sy' = bdm s sy') /\ bdeps s' = bdeps s /\ bpend s' = bpend s.
Proof.
  induction l as [|[[lo hi] x] l IH]; intros s d E; cbn [make_all port_calls port_ops] in *.
  - cbn in E. injection E as <-. exists s. cbn. rewrite app_nil_r. split; [reflexivity|]. split; [lia|]. auto 10.
  - unfold createPort, register. cbv beta iota zeta.
    set (s1 := Bld (S (bnext s)) (bnodes s ++ [(bnext s, BPort port (zrange lo hi))]) (vt_insert (bvt s) port (zrange lo hi) (bnext s))
                   (bdm s) (bdeps s) (bpend s)).
    destruct x; cbn [app] in E.
    + cbn [run_calls] in E. unfold baddDrivers. change (bdm s1) with (bdm s).
      change (match bdm s sy with Some d0 => d0 | None => dm_empty end) with (dmof s sy).
      destruct (addDrivers (dmof s sy) (zrange lo hi) [bnext s] false) as [d1|]; cbn [dbind] in *; [|discriminate].
      set (s2 := Bld (bnext s1) (bnodes s1) (bvt s1) (upd (bdm s) sy (Some d1)) (bdeps s1) (bpend s1)).
      assert (D2 : dmof s2 sy = d1) by (unfold dmof, s2; cbn [bdm]; now rewrite upd_same).
      destruct (IH s2 d) as (s' & E' & F1 & F2 & F3 & F4 & F5 & F6 & F7); [rewrite D2; exact E|].
      exists s'. split; [exact E'|]. cbn [length]. split; [rewrite F1; cbn; lia|]. split; [|split; [|split; [|split; [|split]]]].
      * rewrite F2. cbn. now rewrite <- app_assoc.
      * rewrite F3. reflexivity.
      * exact F4.
      * intros sy' Ne. rewrite F5 by exact Ne. cbn [s2 bdm]. now rewrite upd_other.
      * rewrite F6. reflexivity.
      * rewrite F7. reflexivity.
    + cbn [dbind]. destruct (IH s1 d E) as (s' & E' & F1 & F2 & F3 & F4 & F5 & F6 & F7).
      exists s'. split; [exact E'|]. cbn [length]. split; [rewrite F1; cbn; lia|]. split; [|split; [|split; [|split; [|split]]]]; auto.
      rewrite F2. cbn. now rewrite <- app_assoc.
Qed.

Lemma zbounds lo hi : lo <= hi -> lower (zrange lo hi) = Z.of_nat lo /\ upper (zrange lo hi) = Z.of_nat hi.
Proof. intros L. unfold lower, upper, zrange. cbn. lia. Qed.

Lemma apart_tail x l : ranges_apart (x :: l) -> ranges_apart l.
Proof. intros A p lo hi b q lo' hi' b' r ->. eapply (A (x :: p)). reflexivity. Qed.
Lemma apart_head lo hi x l : ranges_apart ((lo, hi, x) :: l) -> forall lo' hi' x', In (lo', hi', x') l -> hi < lo' \/ hi' < lo.
Proof. intros A lo' hi' x' I. apply in_split in I. destruct I as (q & r & ->). exact (A [] lo hi x q lo' hi' x' r eq_refl). Qed.

Lemma calls_no_inner : forall l n R, ranges_apart l -> ascending l ->
  (forall q lo hi x, In q R -> In (lo, hi, x) l -> snd q < Z.of_nat lo \/ Z.of_nat hi < fst q)%Z ->
  no_inner R (port_calls n l).
Proof.
  induction l as [|[[lo hi] x] l IH]; intros n R A S H; cbn [port_calls]; [exact I|].
  pose proof (S lo hi x (or_introl eq_refl)) as L. destruct (zbounds lo hi L) as [B1 B2].
  assert (S' : ascending l) by (intros a b c J; apply (S a b c); now right).
  destruct x; cbn [app no_inner].
  - rewrite B1, B2. split.
    + intros q Iq. specialize (H q lo hi true Iq (or_introl eq_refl)). lia.
    + apply IH; [now apply apart_tail in A|exact S'|]. intros q lo' hi' x' [<-|Iq] J; cbn [fst snd].
      * pose proof (apart_head _ _ _ _ A lo' hi' x' J). lia.
      * apply (H q lo' hi' x' Iq). now right.
  - apply IH; [now apply apart_tail in A|exact S'|]. intros q lo' hi' x' Iq J. apply (H q lo' hi' x' Iq). now right.
Qed.

Lemma calls_bit i : forall l n acc, ranges_apart l -> ascending l ->
  (acc <> None -> forall lo hi x, In (lo, hi, x) l -> ~ (Z.of_nat lo <= i <= Z.of_nat hi)%Z) ->
  forall m, (exists r, fold_left (bit_step i) (port_calls n l) acc = Some r /\ In m r) <->
    (exists r, acc = Some r /\ In m r) \/
    exists lo hi, In (zrange lo hi, [m], false) (port_calls n l) /\ lo <= hi /\ (Z.of_nat lo <= i <= Z.of_nat hi)%Z.
Proof.
  induction l as [|[[lo hi] x] l IH]; intros n acc A S H m; cbn [port_calls].
  - cbn. split; [auto|]. intros [Q|(? & ? & [] & _)]. exact Q.
  - pose proof (S lo hi x (or_introl eq_refl)) as L.
    assert (S' : ascending l) by (intros a b c J; apply (S a b c); now right).
    pose proof (apart_tail _ _ A) as A'. destruct x; cbn [app].
    + cbn [fold_left]. unfold bit_step at 2. cbn [zrange rleft rright].
      destruct ((Z.min (Z.of_nat lo) (Z.of_nat hi) <=? i) && (i <=? Z.max (Z.of_nat lo) (Z.of_nat hi)))%Z eqn:C.
      * assert (Ci : (Z.of_nat lo <= i <= Z.of_nat hi)%Z) by lia.
        assert (N : acc = None).
        { destruct acc; [|reflexivity]. exfalso. apply (H ltac:(discriminate) lo hi true); [now left|exact Ci]. }
        subst acc. rewrite IH; [|exact A'|exact S'|].
        -- split.
           ++ intros [(r & [= <-] & [<-|[]])|(lo' & hi' & J & Q)].
              ** right. exists lo, hi. split; [now left|]. split; [exact L|exact Ci].
              ** right. exists lo', hi'. split; [now right|exact Q].
           ++ intros [(r & Q & _)|(lo' & hi' & [J|J] & Q)]; [discriminate| |right; eauto].
              injection J as _ _ <-. left. exists [n]. split; [reflexivity|now left].
        -- intros _ lo' hi' x' J. pose proof (apart_head _ _ _ _ A lo' hi' x' J). lia.
      * rewrite IH; [|exact A'|exact S'|].
        -- split.
           ++ intros [Q|(lo' & hi' & J & Q)]; [now left|right]. exists lo', hi'. split; [now right|exact Q].
           ++ intros [Q|(lo' & hi' & [J|J] & L' & Q)]; [now left| |right; eauto].
              injection J as J1 J2 _. lia.
        -- intros Ne lo' hi' x' J. apply (H Ne lo' hi' x'). now right.
    + apply IH; [exact A'|exact S'|]. intros Ne lo' hi' x' J. apply (H Ne lo' hi' x'). now right.
Qed.

Lemma calls_ops port m lo hi : forall l n, In (zrange lo hi, [m], false) (port_calls n l) ->
  In (port, zrange lo hi, m) (port_ops port n l) /\ exists a b, In (a, b, true) l /\ zrange a b = zrange lo hi.
Proof.
  induction l as [|[[a b] x] l IH]; intros n I; cbn [port_calls port_ops] in *; [destruct I|].
  destruct x; cbn [app] in I.
  - destruct I as [E|I].
    + injection E as E1 E2 <-. split; [left; unfold zrange; congruence|]. exists a, b. split; [now left|]. unfold zrange. congruence.
    + destruct (IH _ I) as (Q & a' & b' & J & E). split; [now right|]. exists a', b'. split; [now right|exact E].
  - destruct (IH _ I) as (Q & a' & b' & J & E). split; [now right|]. exists a', b'. split; [now right|exact E].
Qed.
Lemma zrange_inj a b c d : zrange a b = zrange c d -> a = c /\ b = d.
Proof. unfold zrange. intros H. injection H. lia. Qed.

Lemma ops_entry port m b : forall l n, In (port, b, m) (port_ops port n l) ->
  exists lo hi x, In (lo, hi, x) l /\ b = zrange lo hi /\ (x = true -> In (zrange lo hi, [m], false) (port_calls n l)).
Proof.
  induction l as [|[[lo hi] x] l IH]; intros n I; cbn [port_calls port_ops] in *; [destruct I|].
  destruct I as [E|I].
  - injection E as <- <-. exists lo, hi, x. split; [now left|]. split; [reflexivity|]. intros ->. now left.
  - destruct (IH _ I) as (lo' & hi' & x' & J & -> & C). exists lo', hi', x'. split; [now right|]. split; [reflexivity|].
    intros E. apply in_or_app. right. auto.
Qed.

(** * The list of segments of all drivers *)
Lemma in_flat h ds lo hi x : In (lo, hi, x) (flat h ds) <->
  exists a b, In (a, b, x) ds /\ In (lo, hi) (port_segments h a b).
Proof.
  unfold flat. rewrite in_flat_map. split.
  - intros ([[a b] y] & I & J). apply in_map_iff in J. destruct J as ([lo' hi'] & E & J). cbn in *. injection E as <- <- <-. eauto.
  - intros (a & b & I & J). exists (a, b, x). split; [exact I|]. apply in_map_iff. exists (lo, hi). auto.
Qed.

Lemma split_two {A} (u v : list A) : forall p x q y r, u ++ v = p ++ x :: q ++ y :: r ->
  (exists p', v = p' ++ x :: q ++ y :: r) \/
  (exists q1, u = p ++ x :: q1 /\ exists q2, v = q2 ++ y :: r) \/
  (exists r1, u = p ++ x :: q ++ y :: r1).
Proof.
  induction u as [|a u IH]; intros p x q y r E; [left; eauto|].
  destruct p as [|b p]; cbn [app] in E; injection E as -> E.
  - right. clear IH. revert q E. induction u as [|c u IHu]; intros q E.
    + left. exists []. split; [reflexivity|]. exists q. exact E.
    + destruct q as [|d q]; cbn [app] in E; injection E as -> E.
      * right. exists u. reflexivity.
      * destruct (IHu q E) as [(q1 & H1 & q2 & H2)|(r1 & H)].
        -- left. exists (d :: q1). split; [cbn; now injection H1 as ->|]. eauto.
        -- right. exists r1. cbn. now injection H as ->.
  - destruct (IH _ _ _ _ _ E) as [H|[(q1 & -> & H)|(r1 & ->)]]; [now left| |].
    + right. left. exists q1. auto.
    + right. right. exists r1. reflexivity.
Qed.

Lemma flat_ok h ds : ascending ds -> ranges_apart ds -> (forall hs, h = Some hs -> StronglySorted lt hs) ->
  ascending (flat h ds) /\ ranges_apart (flat h ds).
Proof.
  intros S A Sh. split.
  - intros lo hi x I. apply in_flat in I. destruct I as (a & b & I & J).
    destruct (segments_spec h a b (S _ _ _ I) Sh) as (_ & Q & _). specialize (Q _ J). cbn in Q. lia.
  - induction ds as [|[[a b] x] ds IH]; [intros p; destruct p; discriminate|].
    assert (S' : ascending ds) by (intros u v w J; apply (S u v w); now right).
    specialize (IH S' (apart_tail _ _ A)).
    pose proof (S a b x (or_introl eq_refl)) as L. destruct (segments_spec h a b L Sh) as (T & Q & _).
    intros p lo hi y q lo' hi' y' r E. cbn [flat flat_map fst snd] in E. fold (flat h ds) in E.
    destruct (split_two _ _ _ _ _ _ _ E) as [(p' & H)|[(q1 & H1 & q2 & H2)|(r1 & H)]].
    + exact (IH _ _ _ _ _ _ _ _ _ H).
    + assert (I1 : In (lo, hi, y) (map (fun s => (fst s, snd s, x)) (port_segments h a b))) by (rewrite H1; apply in_elt).
      assert (I2 : In (lo', hi', y') (flat h ds)) by (rewrite H2; apply in_elt).
      apply in_map_iff in I1. destruct I1 as ([u v] & E1 & I1). cbn in E1. injection E1 as <- <- <-.
      apply in_flat in I2. destruct I2 as (a' & b' & J & K). pose proof (Q _ I1) as Q1. cbn in Q1.
      destruct (segments_spec h a' b' (S' _ _ _ J) Sh) as (_ & Q' & _). specialize (Q' _ K). cbn in Q'.
      pose proof (apart_head _ _ _ _ A a' b' y' J). lia.
    + left. pose proof (segs_apart _ _ _ T) as SA.
      assert (E2 : map (fun s => (fst s, snd s + 1)) (port_segments h a b) =
                   map (fun z : nat * nat * bool => (fst (fst z), snd (fst z) + 1)) (map (fun s => (fst s, snd s, x)) (port_segments h a b)))
        by (rewrite map_map; reflexivity).
      rewrite H in E2. rewrite !map_app in E2. cbn [map fst snd] in E2. rewrite map_app in E2. cbn [map fst snd] in E2.
      specialize (SA _ _ _ _ _ E2). cbn in SA. lia.
Qed.

Lemma make_all_err port sy : forall l s e, run_calls (dmof s sy) (port_calls (bnext s) l) = DErr e ->
  make_all s port sy l = DErr e.
Proof.
  induction l as [|[[lo hi] x] l IH]; intros s e E; cbn [make_all port_calls] in *; [discriminate|].
  unfold createPort, register. cbv beta iota zeta.
  set (s1 := Bld (S (bnext s)) _ _ (bdm s) (bdeps s) (bpend s)).
  destruct x; cbn [app] in E.
  - cbn [run_calls] in E. unfold baddDrivers. change (bdm s1) with (bdm s).
    change (match bdm s sy with Some d0 => d0 | None => dm_empty end) with (dmof s sy).
    destruct (addDrivers (dmof s sy) (zrange lo hi) [bnext s] false) as [d1|]; cbn [dbind] in *; [|congruence].
    apply IH. unfold dmof at 1. cbn [bdm bnext s1]. rewrite upd_same. exact E.
  - cbn [dbind]. apply IH. exact E.
Qed.

Lemma ops_of_flat port m b : forall l n, In (port, b, m) (port_ops port n l) -> exists lo hi x, In (lo, hi, x) l /\ b = zrange lo hi.
Proof. intros l n I. destruct (ops_entry port m b l n I) as (lo & hi & x & J & E & _). eauto. Qed.
Lemma flat_ops port lo hi x : forall l n, In (lo, hi, x) l -> exists m, In (port, zrange lo hi, m) (port_ops port n l).
Proof.
  induction l as [|[[a b] y] l IH]; intros n I; [destruct I|]. cbn [port_ops]. destruct I as [E|I].
  - injection E as -> -> ->. exists n. now left.
  - destruct (IH (S n) I) as (m & J). exists m. now right.
Qed.
Lemma ops_port port : forall l n o, In o (port_ops port n l) -> fst (fst o) = port.
Proof. induction l as [|[[a b] y] l IH]; intros n o [<-|I] || intros n o []; cbn; eauto. Qed.
Lemma ops_ids port : forall l n, map snd (port_ops port n l) = seq n (length l).
Proof. induction l as [|[[a b] y] l IH]; intros n; cbn; [reflexivity|]. now rewrite IH. Qed.
Lemma ops_pos port : forall l n p o q o' r, port_ops port n l = p ++ o :: q ++ o' :: r ->
  exists a lo hi x b lo' hi' x' c, l = a ++ (lo, hi, x) :: b ++ (lo', hi', x') :: c /\
    snd (fst o) = zrange lo hi /\ snd (fst o') = zrange lo' hi'.
Proof.
  assert (One : forall l n p o r, port_ops port n l = p ++ o :: r ->
    exists a lo hi x b m, l = a ++ (lo, hi, x) :: b /\ snd (fst o) = zrange lo hi /\ r = port_ops port m b).
  { induction l as [|[[lo hi] x] l IH]; intros n p o r E; cbn [port_ops] in E; [destruct p; discriminate|].
    destruct p as [|o0 p]; cbn [app] in E; injection E.
    - intros <- <-. exists [], lo, hi, x, l, (S n). auto.
    - intros E' _. destruct (IH _ _ _ _ E') as (a & lo1 & hi1 & x1 & b & m & -> & H & R).
      exists ((lo, hi, x) :: a), lo1, hi1, x1, b, m. auto. }
  intros l n p o q o' r E. destruct (One _ _ _ _ _ E) as (a & lo & hi & x & b & m & -> & H & R). symmetry in R.
  destruct (One _ _ _ _ _ R) as (a' & lo' & hi' & x' & b' & m' & -> & H' & _).
  exists a, lo, hi, x, a', lo', hi', x', b'. auto.
Qed.

Lemma drives_live d i n : drives d i n <-> has d i n.
Proof. unfold drives, has, S_Interval.inside. split; intros (x & l & H); exists x, l; tauto. Qed.
Lemma drives_dmof s sy i n : drives_global (bdm s) sy i n <-> drives (dmof s sy) i n.
Proof.
  unfold drives_global, dmof. destruct (bdm s sy) as [d|].
  - split; [intros (d' & [= <-] & H); exact H|eauto].
  - split; [intros (d & Q & _); discriminate|]. intros (x & l & [] & _).
Qed.

Lemma materialize_nodes hints s port sy ds s' : ascending ds -> (forall hs, hints sy = Some hs -> StronglySorted lt hs) ->
  materializePortNodes hints s port (Some sy) ds = DOk s' ->
  exists new, bnodes s' = bnodes s ++ new /\ map fst new = seq (bnext s) (length new) /\
    bvt s' = vt_run (bvt s) (port_ops port (bnext s) (flat (hints sy) ds)) /\
    (forall o, In o (port_ops port (bnext s) (flat (hints sy) ds)) <-> exists b m, o = (port, b, m) /\ In (m, BPort port b) new) /\
    (forall m k, In (m, k) new -> exists lo hi a b x, k = BPort port (zrange lo hi) /\ In (a, b, x) ds /\ a <= lo <= hi /\ hi <= b /\
       (lo = a \/ exists hs, hints sy = Some hs /\ In lo hs) /\ (hi = b \/ exists hs, hints sy = Some hs /\ In (hi + 1) hs) /\
       forall hs c, hints sy = Some hs -> In c hs -> ~ lo < c <= hi) /\
    (forall i, (exists m lo hi, In (m, BPort port (zrange lo hi)) new /\ lo <= i <= hi) <-> exists a b x, In (a, b, x) ds /\ a <= i <= b) /\
    (ranges_apart ds -> forall p m lo hi q m' lo' hi' r,
       new = p ++ (m, BPort port (zrange lo hi)) :: q ++ (m', BPort port (zrange lo' hi')) :: r -> hi < lo' \/ hi' < lo).
Proof.
  intros S Sh E. cbn [materializePortNodes] in E. rewrite make_drivers_all in E.
  destruct (run_calls (dmof s sy) (port_calls (bnext s) (flat (hints sy) ds))) as [d|er] eqn:Rc;
    [|rewrite (make_all_err port sy _ _ _ Rc) in E; discriminate].
  destruct (make_all_fields port sy _ _ _ Rc) as (s1 & E1 & _ & F2 & F3 & _). rewrite E1 in E. injection E as ->.
  set (ops := port_ops port (bnext s) (flat (hints sy) ds)) in *.
  set (new := map (fun o : nat * range * nat => (snd o, BPort (fst (fst o)) (snd (fst o)))) ops) in *.
  assert (New : forall m k, In (m, k) new <-> exists b, k = BPort port b /\ In (port, b, m) ops).
  { intros m k. unfold new. rewrite in_map_iff. split.
    - intros ([[p b] m'] & Q & I). cbn in Q. injection Q as <- <-. pose proof (ops_port port _ _ _ I) as P. cbn in P. subst p. eauto.
    - intros (b & -> & I). exists (port, b, m). auto. }
  exists new. split; [exact F2|]. split.
  { unfold new. rewrite map_map, map_length. cbn [fst]. 
    change (map (fun o => snd o) ops) with (map snd ops). unfold ops.
    replace (length (port_ops port (bnext s) (flat (hints sy) ds))) with (length (flat (hints sy) ds)); [apply ops_ids|].
    rewrite <- (map_length snd (port_ops _ _ _)), ops_ids. now rewrite seq_length. }
  split; [exact F3|]. split; [|split; [|split]].
  - intros [[p b] m]. split.
    + intros I. pose proof (ops_port port _ _ _ I) as P. cbn in P. subst p. exists b, m. split; [reflexivity|]. apply New. eauto.
    + intros (b' & m' & [= -> -> ->] & I). apply New in I. destruct I as (b & [= ->] & I). exact I.
  - intros m k I. apply New in I. destruct I as (b & -> & I). apply ops_of_flat in I. destruct I as (lo & hi & x & I & ->).
    apply in_flat in I. destruct I as (a & b & I & J). destruct (segments_spec (hints sy) a b (S _ _ _ I) Sh) as (_ & B & N & Q).
    exists lo, hi, a, b, x. specialize (B _ J). specialize (Q _ J). cbn in B, Q. split; [reflexivity|]. split; [exact I|].
    split; [lia|]. split; [lia|]. split; [apply Q|]. split; [apply Q|]. intros hs c H1 H2. exact (N _ _ _ J H1 H2).
  - intros i. split.
    + intros (m & lo & hi & I & L). apply New in I. destruct I as (b & [= Eb] & I). apply ops_of_flat in I.
      destruct I as (lo' & hi' & x & I & ->). assert (Ez : zrange lo hi = zrange lo' hi') by exact Eb.
      apply zrange_inj in Ez. destruct Ez as [-> ->]. apply in_flat in I. destruct I as (a & c & I & J).
      destruct (segments_spec (hints sy) a c (S _ _ _ I) Sh) as (_ & B & _). specialize (B _ J). cbn in B.
      exists a, c, x. split; [exact I|lia].
    + intros (a & b & x & I & L). destruct (segments_spec (hints sy) a b (S _ _ _ I) Sh) as (T & _).
      destruct (segs_cover _ _ _ i T) as (g & J & H); [lia|]. apply in_map_iff in J. destruct J as ([lo hi] & <- & J). cbn in H.
      assert (K : In (lo, hi, x) (flat (hints sy) ds)) by (apply in_flat; eauto).
      destruct (flat_ops port lo hi x _ (bnext s) K) as (m & O). exists m, lo, hi. split; [apply New; eauto|lia].
  - intros A p m lo hi q m' lo' hi' r Q. destruct (flat_ok (hints sy) ds S A Sh) as [_ FA].
    unfold new in Q. apply map_eq_app in Q. destruct Q as (p1 & r1 & Q & _ & Q1).
    apply map_eq_cons in Q1. destruct Q1 as (o & t & -> & Eo & Q1).
    apply map_eq_app in Q1. destruct Q1 as (q1 & r2 & -> & _ & Q1).
    apply map_eq_cons in Q1. destruct Q1 as (o' & t' & -> & Eo' & _).
    destruct (ops_pos port _ _ _ _ _ _ _ Q) as (a & l1 & h1 & x1 & b & l2 & h2 & x2 & c & Fl & Z1 & Z2).
    injection Eo as _ _ Eo. injection Eo' as _ _ Eo'. rewrite Z1 in Eo. rewrite Z2 in Eo'.
    apply zrange_inj in Eo. apply zrange_inj in Eo'. specialize (FA _ _ _ _ _ _ _ _ _ Fl). lia.
Qed.

Lemma materialize_inputs hints s port sy ds : ascending ds -> ranges_apart ds -> (forall hs, hints sy = Some hs -> StronglySorted lt hs) ->
  bdm s sy = None ->
  exists s' new, materializePortNodes hints s port (Some sy) ds = DOk s' /\ bnodes s' = bnodes s ++ new /\
    (forall i m, drives_global (bdm s') sy (Z.of_nat i) m <->
       exists lo hi a b, In (m, BPort port (zrange lo hi)) new /\ lo <= i <= hi /\ In (a, b, true) ds /\ a <= i <= b) /\
    (forall sy', sy' <> sy -> bdm s' sy' = bdm s sy').
Proof.
  intros S A Sh N. destruct (flat_ok (hints sy) ds S A Sh) as [FS FA]. set (l := flat (hints sy) ds) in *.
  assert (D0 : dmof s sy = dm_empty) by (unfold dmof; now rewrite N).
  destruct (run_exact_empty (port_calls (bnext s) l)) as (d & Rc & Dk & Us & B).
  { apply calls_no_inner; auto. intros q lo hi x []. }
  rewrite <- D0 in Rc. destruct (make_all_fields port sy l s d Rc) as (s' & E' & _ & F2 & F3 & F4 & F5 & _).
  assert (Em : materializePortNodes hints s port (Some sy) ds = DOk s') by (cbn [materializePortNodes]; rewrite make_drivers_all; exact E').
  exists s'. eexists. split; [exact Em|]. split; [exact F2|]. split; [|exact F5].
  intros i m. rewrite drives_dmof, F4, drives_live. destruct (B (Z.of_nat i)) as [_ B2]. rewrite B2. unfold bit_drivers.
  rewrite (calls_bit (Z.of_nat i) l (bnext s) None FA FS); [|congruence]. split.
  - intros [(r & Q & _)|(lo & hi & I & L & C)]; [discriminate|]. destruct (calls_ops port m lo hi _ _ I) as (O & a & b & J & Ez).
    apply zrange_inj in Ez. destruct Ez as [-> ->]. apply in_flat in J. destruct J as (a & b & J & K).
    destruct (segments_spec (hints sy) a b (S _ _ _ J) Sh) as (_ & Bd & _). specialize (Bd _ K). cbn in Bd.
    exists lo, hi, a, b. split; [|split; [lia|split; [exact J|lia]]].
    apply in_map_iff. eexists. split; [|exact O]. reflexivity.
  - intros (lo & hi & a & b & I & C & J & C'). right. exists lo, hi.
    apply in_map_iff in I. destruct I as ([[p bb] m'] & Q & I). cbn in Q. injection Q as -> -> Eb.
    destruct (ops_entry port m bb _ _ I) as (lo' & hi' & x & K & -> & Cx). apply zrange_inj in Eb. destruct Eb as [<- <-].
    assert (x = true) as ->.
    { apply in_flat in K. destruct K as (a' & b' & K & G). destruct (segments_spec (hints sy) a' b' (S _ _ _ K) Sh) as (_ & Bd & _).
      specialize (Bd _ G). cbn in Bd. destruct x; [reflexivity|]. exfalso.
      apply in_split in J. destruct J as (u & v & ->). apply in_app_or in K. destruct K as [K|[K|K]]; [|discriminate|].
      - apply in_split in K. destruct K as (u1 & u2 & ->). rewrite <- app_assoc in A. cbn [app] in A.
        pose proof (A _ _ _ _ _ _ _ _ _ eq_refl). lia.
      - apply in_split in K. destruct K as (v1 & v2 & ->). pose proof (A _ _ _ _ _ _ _ _ _ eq_refl). lia. }
    split; [exact (Cx eq_refl)|lia].
Qed.
