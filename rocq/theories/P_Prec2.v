(** Proofs about whole designs: what a connection asks for, and what the builder adds. *)
From Coq Require Import Sorted.
From Verif Require Import Base M_Graph M_Range M_Netlist M_Annot M_Interval M_Heap M_Drivers M_Pending M_DFA M_Builder M_Slice M_Port M_Flow
  S_Reach S_Netlist S_Annot S_Interval S_Drivers S_Pending S_DFA S_Builder S_Slice S_Port S_Flow S_Prec
  P_Interval P_Heap P_Drivers P_DriversX P_Annot P_Pending P_DFA P_DFA2 P_Builder P_Slice P_Slice2 P_Port P_Port2 P_Port3 P_Flow2 P_Flow3 P_Flow4 P_Flow5 P_Flow6 P_Flow7.

(** * What a connection asks for *)
Section Acts.
Context {V : Type}.
Variable vz : V.
Variable m : list (iv nat).
Variable w : nat.
Hypothesis Pm : in_port m w.
Hypothesis W : 0 < w.

(** Ranges asked for are equal or apart. *)
Definition apart_drives (l : list (@pact V)) : Prop := forall sy lo hi n lo' hi' n', In (PDrive sy lo hi n) l -> In (PDrive sy lo' hi' n') l ->
  (lo = lo' /\ hi = hi') \/ hi < lo' \/ hi' < lo.

Lemma aligned_drives (e : expr V) l : lvalue e -> typed nodyn e -> ew e = w -> NoDup (lbits e) ->
  handlePortConnection vz epaths true true true m w e = Some l -> apart_drives l /\ (forall sy lo hi n, ~ In (PRead sy lo hi n) l) /\ (forall v ns, ~ In (PConst v ns) l).
Proof.
  intros Lv T Ew Nd E. destruct (port_list_spec (V := V) m w Pm W) as [Tp _].
  destruct (build_list_spec V vz no_hints e no_hints_sorted T) as (Te & Pe & Ge). set (al := build vz no_hints e []) in *. rewrite Ew in Te.
  assert (Srt : StronglySorted (fun g g' : segment V => shi g <= slo g') (alignSegments (buildPortSliceList m w) al)).
  { unfold alignSegments. eapply sorted_map; [|apply pairs_sorted, sorted_merge]. intros x y H. exact H. }
  unfold handlePortConnection in E. cbn [negb orb] in E. fold al in E. rewrite (tiled_width V _ _ Tp), (tiled_width V _ _ Te) in E.
  destruct (Nat.eqb_spec w 0) as [Z|_]; [lia|]. rewrite Nat.eqb_refl in E. cbn [negb] in E.
  assert (Wx : forall g x, In g (alignSegments (buildPortSliceList m w) al) -> In x (rsrcs g) -> wf_src V g x).
  { intros g x Ig Ix. destruct (align_facts V _ al w g Tp Te Ig) as (L1 & L2 & B & _ & _ & Sg).
    destruct (Sg (slo g)) as [_ S2]; [lia|]. rewrite <- S2 in Ix. apply (good_wf_src V al w g); auto. }
  destruct (drive_segments_spec epaths true _ Wx) as (l' & E' & H). rewrite E in E'. injection E' as <-.
  destruct (lv_bits vz e Lv T) as (Eb & _).
  assert (At : forall g x k a, In g (alignSegments (buildPortSliceList m w) al) -> In x (rsrcs g) -> slo g <= k < shi g -> In a (atoms_of vz k x) ->
    exists t j, a = ABit (Some t) j /\ nth_error (lbits e) k = Some (t, j)).
  { intros g x k a Ig Ix K Ia. destruct (align_facts V _ al w g Tp Te Ig) as (L1 & L2 & B & _ & _ & Sg). destruct (Sg k K) as [_ S2].
    assert (A : In a (nth k (bits vz e) [])).
    { rewrite <- Pe. replace k with (k - 0) by lia. rewrite <- (attr_provs V vz al 0 w k) by (auto; lia). rewrite attr_find. apply in_flat_map. exists x. rewrite S2. auto. }
    rewrite Eb in A. destruct (nth_error (lbits e) k) as [[t j]|] eqn:En.
    - erewrite nth_error_nth in A by (rewrite nth_error_map, En; reflexivity). cbn in A. destruct A as [<-|[]]. eauto.
    - rewrite nth_overflow in A; [destruct A|]. rewrite map_length. now apply nth_error_None. }
  assert (Dr : forall sy lo hi n, In (PDrive sy lo hi n) l -> exists g, In g (alignSegments (buildPortSliceList m w) al) /\ slo g < shi g /\ hi + 1 = lo + (shi g - slo g) /\
    forall k, slo g <= k < shi g -> nth_error (lbits e) k = Some (sy, lo + (k - slo g))).
  { intros sy lo hi n I. apply H in I. destruct I as (g & x & lx & Ig & Ix & Ne & D & I). exists g. split; [exact Ig|].
    destruct (align_facts V _ al w g Tp Te Ig) as (L1 & _). split; [exact L1|]. pose proof (Wx g x Ig Ix) as Ws.
    destruct x as [p a b|sg|e'|n' a b|v a b o]; cbn [drive_src] in D.
    - destruct (proot p) as [s'|] eqn:R; [|cbn in Ws; tauto]. injection D as <-. apply in_map_iff in I. destruct I as (n' & Q & _). injection Q as <- <- <- _.
      cbn in Ws. split; [lia|]. intros k K. destruct (At g (SLsp p a b) k (ABit (proot p) (plo p + (k - a))) Ig Ix K) as (t & j & Q & En); [now left|].
      rewrite R in Q. injection Q as -> <-. rewrite En. do 2 f_equal. lia.
    - injection D as <-. destruct I.
    - injection D as <-. apply in_flat_map in I. destruct I as (p & Ip & I). apply in_flat_map in I. destruct I as (n' & In' & I).
      unfold full_read in I. destruct (proot p); [|destruct I]. destruct I as [Q|[]]. discriminate.
    - discriminate.
    - injection D as <-. destruct I. }
  split; [|split].
  - intros sy lo hi n lo' hi' n' I I'. destruct (Dr _ _ _ _ I) as (g & Ig & L & Eh & Hk). destruct (Dr _ _ _ _ I') as (g' & Ig' & L' & Eh' & Hk').
    destruct (le_lt_dec lo' hi) as [D|D]; [|auto]. destruct (le_lt_dec lo hi') as [D'|D']; [|auto]. left.
    set (x := max lo lo'). assert (K1 : nth_error (lbits e) (slo g + (x - lo)) = Some (sy, x)) by (rewrite Hk by lia; do 2 f_equal; lia).
    assert (K2 : nth_error (lbits e) (slo g' + (x - lo')) = Some (sy, x)) by (rewrite Hk' by lia; do 2 f_equal; lia).
    pose proof (nth_error_same _ _ _ _ Nd K1 K2) as Q.
    destruct (sorted_two _ _ g g' Srt Ig Ig') as [->|[S1|S1]]; [|lia|lia]. lia.
  - intros sy lo hi n I. apply H in I. destruct I as (g & x & lx & Ig & Ix & Ne & D & I).
    destruct (align_facts V _ al w g Tp Te Ig) as (L1 & _). destruct x as [p a b|sg|e'|n' a b|v a b o]; cbn [drive_src] in D.
    + destruct (proot p); injection D as <-; [|destruct I]. apply in_map_iff in I. destruct I as (n' & Q & _). discriminate.
    + injection D as <-. destruct I.
    + destruct (At g (SOpq e') (slo g) (AOpq e') Ig Ix) as (t & j & Q & _); [lia|now left|]. discriminate.
    + discriminate.
    + injection D as <-. destruct I.
  - destruct (connection_out vz epaths m w e Pm W T Ew) as (l0 & E0 & _ & _ & N). unfold handlePortConnection in E0. cbn [negb orb] in E0. fold al in E0.
    rewrite (tiled_width V _ _ Tp), (tiled_width V _ _ Te) in E0. destruct (Nat.eqb_spec w 0) as [Z|_]; [lia|]. rewrite Nat.eqb_refl in E0. cbn [negb] in E0.
    rewrite E in E0. injection E0 as <-. exact N.
Qed.
Lemma legacy_drives (e : expr V) : lvalue e -> typed nodyn e -> NoDup (lbits e) ->
  apart_drives (M_Port.legacy epaths m true e) /\ (forall sy lo hi n, ~ In (PRead sy lo hi n) (M_Port.legacy epaths m true e)) /\
  (forall v ns, ~ In (PConst v ns) (M_Port.legacy epaths m true e)) /\
  (forall sy lo hi n, In (PDrive sy lo hi n) (M_Port.legacy epaths m true e) -> (exists x, In x m /\ ival x = n)).
Proof.
  intros Lv T Nd. destruct (lv_bits vz e Lv T) as (_ & _ & Eb & Lp).
  assert (In_ : forall a, In a (M_Port.legacy epaths m true e) -> exists p s x, In p (lpaths e) /\ proot p = Some s /\ In x m /\ a = PDrive s (plo p) (phi p) (ival x)).
  { intros a I. unfold M_Port.legacy in I. rewrite (epaths_lpaths e Lv) in I. apply in_flat_map in I. destruct I as (p & Ip & I).
    destruct (proot p) as [s|] eqn:R; [|destruct I]. apply in_map_iff in I. destruct I as (x & <- & Ix). exists p, s, x. auto. }
  split; [|split; [|split]].
  - intros sy lo hi n lo' hi' n' I I'. destruct (In_ _ I) as (p & s & x & Ip & R & _ & Q). destruct (In_ _ I') as (p' & s' & x' & Ip' & R' & _ & Q').
    injection Q as -> -> -> _. injection Q' as <- -> -> _. destruct (Lp p Ip) as [_ L]. destruct (Lp p' Ip') as [_ L'].
    destruct (le_lt_dec (plo p') (phi p)) as [D|D]; [|auto]. destruct (le_lt_dec (plo p) (phi p')) as [D'|D']; [|auto]. left.
    assert (p = p'); [|subst; auto]. rewrite Eb in Nd. apply (flat_map_same pbits (rev (lpaths e)) p p' (s, max (plo p) (plo p')) Nd).
    + apply -> in_rev; exact Ip.
    + apply -> in_rev; exact Ip'.
    + apply in_pbits. split; [exact R|lia].
    + apply in_pbits. split; [exact R'|lia].
  - intros sy lo hi n I. destruct (In_ _ I) as (p & s & x & _ & _ & _ & Q). discriminate.
  - intros v ns I. destruct (In_ _ I) as (p & s & x & _ & _ & _ & Q). discriminate.
  - intros sy lo hi n I. destruct (In_ _ I) as (p & s & x & _ & _ & Ix & Q). injection Q as _ _ _ ->. eauto.
Qed.

(** What an input reads, no more than that. *)
Lemma aligned_reads (e : expr V) l : paths_ok e -> typed nodyn e -> ew e = w -> handlePortConnection vz epaths true true false m w e = Some l ->
  (forall sy lo hi n, In (PRead sy lo hi n) l -> lo <= hi /\ forall x, lo <= x <= hi -> exists k a, carries m n k /\ In a (nth k (bits vz e) []) /\ In (sy, x) (atom_reads a)) /\
  (forall sy lo hi n, ~ In (PDrive sy lo hi n) l) /\
  (forall v ns n, In (PConst v ns) l -> In n ns -> exists k c, carries m n k /\ In (AConst c) (nth k (bits vz e) [])).
Proof.
  intros Po T Ew E. destruct (connection_spec vz epaths false m w e Pm W T Ew) as (gs & l' & E' & H & F & _). rewrite E in E'. injection E' as <-.
  split; [|split].
  - intros sy lo hi n I. apply H in I. destruct I as (g & x & lx & Ig & Ix & Ne & D & I).
    destruct (F g Ig) as (G1 & G2 & Wf & Fk). pose proof (Wf x Ix) as Wx. destruct x as [p a b|sg|e'|n' a b|v a b o]; cbn [drive_src] in D.
    + destruct (proot p) as [s'|] eqn:R; [|cbn in Wx; tauto]. injection D as <-. apply in_map_iff in I. destruct I as (n' & Q & In').
      injection Q as -> <- <- ->. cbn in Wx. split; [lia|]. intros x L. set (k := slo g + (x - (plo p + (slo g - a)))).
      assert (K : slo g <= k < shi g) by (unfold k; lia). destruct (Fk k K) as [F1 F2]. exists k, (ABit (Some sy) x).
      split; [now apply F1|]. split; [|now left]. apply F2. exists (SLsp p a b). split; [exact Ix|]. left. f_equal; [exact R|]. unfold k. lia.
    + injection D as <-. destruct I.
    + injection D as <-. apply in_flat_map in I. destruct I as (p & Ip & I). apply in_flat_map in I. destruct I as (n' & In' & I).
      unfold full_read in I. destruct (proot p) as [s'|] eqn:R; [|destruct I]. destruct I as [[= -> <- <- ->]|[]].
      destruct (Fk (slo g)) as [F1 F2]; [lia|].
      assert (Ia : In (AOpq e') (nth (slo g) (bits vz e) [])) by (apply F2; exists (SOpq e'); split; [exact Ix|now left]).
      destruct (atom_sub vz e Po (slo g) _ Ia) as [Pe _]. specialize (Pe e' eq_refl). split; [eapply paths_le; eauto|]. intros x L.
      exists (slo g), (AOpq e'). split; [now apply F1|]. split; [exact Ia|]. cbn. apply (reads_paths e' Pe). eauto.
    + discriminate.
    + injection D as <-. destruct I as [Q|[]]. discriminate.
  - intros sy lo hi n I. destruct (connection_in vz epaths m w e Pm W T Ew) as (l0 & E0 & _ & N & _). rewrite E in E0. injection E0 as <-.
    apply (N n sy lo). exists lo, hi. split; [exact I|]. split; [lia|]. eapply connection_ordered; eauto.
  - intros v ns n I In_. apply H in I. destruct I as (g & x & lx & Ig & Ix & Ne & D & I).
    destruct (F g Ig) as (G1 & G2 & Wf & Fk). destruct x as [p a b|sg|e'|n' a b|v' a b o]; cbn [drive_src] in D.
    + destruct (proot p); injection D as <-; [|destruct I]. apply in_map_iff in I. destruct I as (n' & Q & _). discriminate.
    + injection D as <-. destruct I.
    + injection D as <-. apply in_flat_map in I. destruct I as (p & Ip & I). apply in_flat_map in I. destruct I as (n' & In' & I).
      unfold full_read in I. destruct (proot p); [|destruct I]. destruct I as [Q|[]]. discriminate.
    + discriminate.
    + injection D as <-. destruct I as [Q|[]]. injection Q as _ <-. destruct (Fk (slo g)) as [F1 F2]; [lia|].
      exists (slo g), (nth (slo g - a) v' vz). split; [now apply F1|]. apply F2. exists (SConst v' a b o). split; [exact Ix|now left].
Qed.
Lemma legacy_reads (e : expr V) : paths_ok e ->
  (forall sy lo hi n, In (PRead sy lo hi n) (M_Port.legacy epaths m false e) -> lo <= hi /\ (exists x, In x m /\ ival x = n) /\ forall x, lo <= x <= hi -> In (sy, x) (reads e)) /\
  (forall sy lo hi n, ~ In (PDrive sy lo hi n) (M_Port.legacy epaths m false e)) /\
  (forall v ns, ~ In (PConst v ns) (M_Port.legacy epaths m false e)).
Proof.
  intros Po.
  assert (In_ : forall a, In a (M_Port.legacy epaths m false e) -> exists p s x, In p (epaths e) /\ proot p = Some s /\ In x m /\ a = PRead s (plo p) (phi p) (ival x)).
  { intros a I. unfold M_Port.legacy in I. apply in_flat_map in I. destruct I as (p & Ip & I).
    destruct (proot p) as [s|] eqn:R; [|destruct I]. apply in_map_iff in I. destruct I as (x & <- & Ix). exists p, s, x. auto. }
  split; [|split].
  - intros sy lo hi n I. destruct (In_ _ I) as (p & s & x & Ip & R & Ix & Q). injection Q as -> -> -> ->. split; [eapply paths_le; eauto|]. split; [eauto|].
    intros y L. apply (reads_paths e Po). eauto.
  - intros sy lo hi n I. destruct (In_ _ I) as (p & s & x & _ & _ & _ & Q). discriminate.
  - intros v ns I. destruct (In_ _ I) as (p & s & x & _ & _ & _ & Q). discriminate.
Qed.

(** ... and no less. *)
Lemma aligned_reads_all (e : expr V) l : paths_ok e -> typed nodyn e -> ew e = w -> handlePortConnection vz epaths true true false m w e = Some l ->
  (forall n k sy i a, carries m n k -> In a (nth k (bits vz e) []) -> In (sy, i) (atom_reads a) -> reads_bit l n sy i) /\
  (forall n k c, carries m n k -> In (AConst c) (nth k (bits vz e) []) -> exists v ns, In (PConst v ns) l /\ In n ns).
Proof.
  intros Po T Ew E. destruct (connection_in vz epaths m w e Pm W T Ew) as (l0 & E0 & R & _ & C). rewrite E in E0. injection E0 as <-.
  assert (K : forall k a, In a (nth k (bits vz e) []) -> k < w).
  { intros k a I. destruct (Nat.lt_ge_cases k w) as [L|L]; [exact L|]. rewrite nth_overflow in I; [destruct I|]. rewrite (bits_length V vz e T), Ew. exact L. }
  split.
  - intros n k sy i a Ca Ia I. apply R. exists k. split; [eapply K; eauto|]. split; [exact Ca|].
    destruct a as [[s'|] i'| |e'|c]; cbn in I; try (now destruct I).
    + destruct I as [I|[]]. inversion I; subst. now left.
    + right. exists e'. split; [exact Ia|]. destruct (atom_sub vz e Po k _ Ia) as [H _]. apply (reads_paths e' (H e' eq_refl)) in I. destruct I as (p & I). exists p. exact I.
  - intros n k c Ca Ia. destruct (proj2 (C n c)) as (v & ns & I1 & I2 & _); [exists k; split; [eapply K; eauto|auto]|]. eauto.
Qed.
Lemma legacy_reads_all (e : expr V) : paths_ok e -> forall x sy i, In x m -> In (sy, i) (reads e) -> reads_bit (M_Port.legacy epaths m false e) (ival x) sy i.
Proof.
  intros Po x sy i Ix I. apply (reads_paths e Po) in I. destruct I as (p & Ip & R & L). exists (plo p), (phi p). split; [|exact L].
  unfold M_Port.legacy. apply in_flat_map. exists p. split; [exact Ip|]. rewrite R. apply in_map_iff. exists x. auto.
Qed.
Lemma legacy_drives_all (e : expr V) : lvalue e -> typed nodyn e -> forall x sy i, In x m -> In (sy, i) (lbits e) -> drives_bit (M_Port.legacy epaths m true e) (ival x) sy i.
Proof.
  intros Lv T x sy i Ix I. destruct (lv_path vz e Lv T sy i I) as (q & Iq & R & L). exists (plo q), (phi q). split; [|exact L].
  unfold M_Port.legacy. rewrite (epaths_lpaths e Lv). apply in_flat_map. exists q. split; [exact Iq|]. rewrite R. apply in_map_iff. exists x. auto.
Qed.
End Acts.
