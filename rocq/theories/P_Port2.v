(** Proofs about the bit-aligned port connection. *)
From Coq Require Import Sorted.
From Verif Require Import Base M_Graph M_Range M_Netlist M_Annot M_Interval M_Heap M_Drivers M_Pending M_DFA M_Builder M_Slice M_Port
  S_Slice S_Port P_Slice P_Slice2 P_Slice3.

Section C.
Context {V : Type}.
Variable vz : V.
Variable visit : expr V -> list path.
Notation slice := (slice V).
Notation segment := (segment V).

(** * The formal side *)
Lemma port_cuts_spec m w : in_port m w -> 0 < w ->
  StronglySorted lt (port_cuts m w) /\ hd_error (port_cuts m w) = Some 0 /\ In w (port_cuts m w) /\
  (forall c, In c (port_cuts m w) -> c <= w) /\
  (forall x, In x m -> In (nlo x) (port_cuts m w) /\ In (nhi x) (port_cuts m w)).
Proof.
  intros P W.
  assert (I : forall c, In c (port_cuts m w) <-> c = 0 \/ c = w \/ exists x, In x m /\ (c = nlo x \/ c = nhi x)).
  { intros c. unfold port_cuts. rewrite in_uniq, in_sort. cbn [In]. rewrite in_flat_map. split.
    - intros [H|[H|(x & J & [H|[H|[]]])]]; eauto 8.
    - intros [H|[H|(x & J & [H|H])]]; [auto|auto| |]; right; right; exists x; (split; [exact J|]); cbn; auto. }
  assert (S : StronglySorted lt (port_cuts m w)) by (apply sorted_uniq, sorted_sort).
  split; [exact S|]. split; [|split; [|split]].
  - assert (I0 : In 0 (port_cuts m w)) by (apply I; auto). destruct (port_cuts m w) as [|x cs]; [destruct I0|].
    cbn. f_equal. inversion S as [|? ? S2 F]; subst. destruct I0 as [E|I0]; [auto|]. rewrite Forall_forall in F. specialize (F 0 I0). lia.
  - apply I. auto.
  - intros c J. apply I in J. destruct J as [->|[->|(x & J & H)]]; [lia|lia|].
    specialize (P x J). unfold nlo, nhi in H. lia.
  - intros x J. split; apply I; eauto 6.
Qed.

Lemma port_list_spec m w : in_port m w -> 0 < w ->
  tiled 0 (@buildPortSliceList V m w) w /\
  forall s k, In s (@buildPortSliceList V m w) -> clo s <= k < chi s ->
    (forall n, (exists a b, In (SPort n a b) (srcs s)) <-> carries m n k) /\
    forall x, In x (srcs s) -> exists n, x = SPort n (clo s) (chi s).
Proof.
  intros P W. destruct (port_cuts_spec m w P W) as (S & H & I & M & N).
  unfold buildPortSliceList. destruct (Nat.eqb_spec w 0) as [Z|_]; [lia|]. split.
  - apply (grid V (port_cuts m w) 0 w (port_slice m) 0); auto.
  - intros s k J K. apply in_map_iff in J. destruct J as ([a b] & <- & J). cbn [port_slice clo chi srcs fst snd] in *.
    destruct (pairs_gap _ _ _ S J) as (L & _ & _ & G). split.
    + intros n. split.
      * intros (c & d & Q). apply in_flat_map in Q. destruct Q as (x & Ix & Q).
        destruct ((nlo x <=? a) && (b <=? nhi x)) eqn:E; [|destruct Q]. destruct Q as [[= <- <- <-]|[]].
        exists x. split; [exact Ix|]. split; [reflexivity|]. specialize (P x Ix). unfold nlo, nhi in E. lia.
      * intros (x & Ix & <- & C). exists a, b. apply in_flat_map. exists x. split; [exact Ix|].
        destruct (N x Ix) as [N1 N2]. specialize (P x Ix). pose proof (G _ N1) as G1. pose proof (G _ N2) as G2. unfold nlo, nhi in *.
        replace ((Z.to_nat (ilo x) <=? a) && (b <=? Z.to_nat (ihi x) + 1)) with true by lia. now left.
    + intros y Q. apply in_flat_map in Q. destruct Q as (x & Ix & Q).
      destruct ((nlo x <=? a) && (b <=? nhi x)); [|destruct Q]. destruct Q as [<-|[]]. eauto.
Qed.

Lemma in_seg_ports (g : segment) n : In n (seg_ports g) <-> exists a b, In (SPort n a b) (lsrcs g).
Proof.
  unfold seg_ports. rewrite in_flat_map. split.
  - intros (x & I & J). destruct x; cbn in J; try (now destruct J).
    destruct J as [<-|[]]. eauto.
  - intros (a & b & I). exists (SPort n a b). split; [exact I|now left].
Qed.

(** * Sources *)
Lemma drive_srcs_spec output (g : segment) ns : forall xs, (forall x, In x xs -> wf_src V g x) ->
  exists l, drive_srcs visit output g ns xs = Some l /\
    forall a, In a l <-> exists x lx, In x xs /\ drive_src visit output g ns x = Some lx /\ In a lx.
Proof.
  induction xs as [|x xs IH]; intros W; cbn [drive_srcs].
  - exists []. split; [reflexivity|]. intros a. split; [intros []|intros (x & lx & [] & _)].
  - destruct IH as (l & E & H); [intros y I; apply W; now right|].
    assert (D : exists lx, drive_src visit output g ns x = Some lx).
    { specialize (W x (or_introl eq_refl)). destruct x; cbn in *; eauto; [|destruct W].
      destruct (proot p); eauto. }
    destruct D as (lx & D). rewrite D, E. exists (lx ++ l). split; [reflexivity|]. intros a. rewrite in_app_iff, H. split.
    + intros [I|(y & ly & I & Q)]; [exists x, lx; split; [now left|auto]|exists y, ly; split; [now right|auto]].
    + intros (y & ly & [<-|I] & Q & J); [left; congruence|right; exists y, ly; auto].
Qed.

Lemma drive_segments_spec output : forall gs : list segment,
  (forall g x, In g gs -> In x (rsrcs g) -> wf_src V g x) ->
  exists l, drive_segments visit output gs = Some l /\
    forall a, In a l <-> exists g x lx, In g gs /\ In x (rsrcs g) /\ seg_ports g <> [] /\
      drive_src visit output g (seg_ports g) x = Some lx /\ In a lx.
Proof.
  induction gs as [|g gs IH]; intros W; cbn [drive_segments].
  - exists []. split; [reflexivity|]. intros a. split; [intros []|intros (g & x & lx & [] & _)].
  - destruct IH as (l & E & H); [intros g' x I; apply W; now right|].
    assert (D : exists lg, drivePortSegment visit output g = Some lg /\ forall a, In a lg <->
      exists x lx, In x (rsrcs g) /\ seg_ports g <> [] /\ drive_src visit output g (seg_ports g) x = Some lx /\ In a lx).
    { unfold drivePortSegment. destruct (seg_ports g) as [|n ns] eqn:Eg.
      - exists []. split; [reflexivity|]. intros a. split; [intros []|intros (x & lx & _ & Q & _); congruence].
      - destruct (drive_srcs_spec output g (n :: ns) (rsrcs g)) as (lg & E1 & H1); [intros x I; apply W; [now left|exact I]|].
        exists lg. split; [exact E1|]. intros a. rewrite H1. split.
        + intros (x & lx & I & Q & J). exists x, lx. split; [exact I|]. split; [discriminate|auto].
        + intros (x & lx & I & _ & Q & J). exists x, lx. auto. }
    destruct D as (lg & D & HD). rewrite D, E. exists (lg ++ l). split; [reflexivity|]. intros a. rewrite in_app_iff, HD, H. split.
    + intros [(x & lx & Q)|(g' & x & lx & I & Q)]; [exists g, x, lx; split; [now left|exact Q]|exists g', x, lx; split; [now right|exact Q]].
    + intros (g' & x & lx & [<-|I] & Q); [left; eauto|right; exists g', x, lx; auto].
Qed.

(** * The connection *)
Lemma connection_spec output m w (e : expr V) : in_port m w -> 0 < w -> typed nodyn e -> ew e = w ->
  exists gs l, handlePortConnection vz visit true true output m w e = Some l /\
    (forall a, In a l <-> exists g x lx, In g gs /\ In x (rsrcs g) /\ seg_ports g <> [] /\
      drive_src visit output g (seg_ports g) x = Some lx /\ In a lx) /\
    (forall g, In g gs -> slo g < shi g /\ shi g <= w /\ (forall x, In x (rsrcs g) -> wf_src V g x) /\
      forall k, slo g <= k < shi g ->
        (forall n, In n (seg_ports g) <-> carries m n k) /\
        (forall a, In a (nth k (bits vz e) []) <-> exists x, In x (rsrcs g) /\ In a (atoms_of vz k x))) /\
    (forall k, k < w -> exists g, In g gs /\ slo g <= k < shi g).
Proof.
  intros P W T Ew. destruct (port_list_spec m w P W) as [Tp Hp].
  destruct (build_list_spec V vz no_hints e no_hints_sorted T) as (Te & Pe & Ge). rewrite Ew in Te.
  set (pl := buildPortSliceList m w) in *. set (al := build vz no_hints e []) in *.
  assert (Fs : forall g, In g (alignSegments pl al) -> slo g < shi g /\ shi g <= w /\ (forall x, In x (rsrcs g) -> wf_src V g x) /\
      forall k, slo g <= k < shi g ->
        (forall n, In n (seg_ports g) <-> carries m n k) /\
        (forall a, In a (nth k (bits vz e) []) <-> exists x, In x (rsrcs g) /\ In a (atoms_of vz k x))).
  { intros g I. destruct (align_facts V pl al w g Tp Te I) as (L1 & L2 & B & _ & _ & Sg).
    split; [exact L1|]. split; [exact L2|]. split.
    - destruct (Sg (slo g)) as [_ S2]; [lia|]. rewrite <- S2. apply (good_wf_src V al w g); auto.
    - intros k K. destruct (Sg k K) as [S1 S2]. split.
      + intros n. rewrite in_seg_ports, <- S1. unfold srcs_at.
        destruct (find_some_tiled V pl 0 w k Tp) as (t & Ft & It & Kt); [lia|]. rewrite Ft. apply (Hp t k It Kt).
      + intros a. rewrite <- S2, <- in_flat_atoms, <- attr_find.
        rewrite (attr_provs V vz al 0 w) by (auto; lia). rewrite Nat.sub_0_r, Pe. reflexivity. }
  destruct (drive_segments_spec output (alignSegments pl al)) as (l & E & H).
  { intros g x I J. apply (Fs g I). exact J. }
  exists (alignSegments pl al), l. split; [|split; [exact H|split; [exact Fs|]]].
  - unfold handlePortConnection. cbn [negb orb]. fold pl al. rewrite (tiled_width V _ _ Tp), (tiled_width V _ _ Te).
    destruct (Nat.eqb_spec w 0) as [Z|_]; [lia|]. rewrite Nat.eqb_refl. exact E.
  - intros k K. apply (align_cover V pl al w k Tp Te K).
Qed.

Definition atom_bits (as_ : list (atom V)) (s i : nat) : Prop := In (ABit (Some s) i) as_.
Definition atom_visits (as_ : list (atom V)) (s i : nat) : Prop := exists e, In (AOpq e) as_ /\ visits visit e s i.

Lemma connection_in m w (e : expr V) : in_port m w -> 0 < w -> typed nodyn e -> ew e = w ->
  exists l, handlePortConnection vz visit true true false m w e = Some l /\
    (forall n s i, reads_bit l n s i <-> exists k, k < w /\ carries m n k /\
       (In (ABit (Some s) i) (nth k (bits vz e) []) \/ exists e', In (AOpq e') (nth k (bits vz e) []) /\ visits visit e' s i)) /\
    (forall n s i, ~ drives_bit l n s i) /\
    (forall n c, (exists v ns, In (PConst v ns) l /\ In n ns /\ In c v) <->
       exists k, k < w /\ carries m n k /\ In (AConst c) (nth k (bits vz e) [])).
Proof.
  intros P W T Ew. destruct (connection_spec false m w e P W T Ew) as (gs & l & E & H & F & Cov).
  exists l. split; [exact E|]. split; [|split].
  - intros n s i. split.
    + intros (lo & hi & I & L). apply H in I. destruct I as (g & x & lx & Ig & Ix & Ne & D & I).
      destruct (F g Ig) as (G1 & G2 & Wf & Fk). pose proof (Wf x Ix) as Wx. destruct x as [p a b|sg|e'|n' a b|v a b o]; cbn [drive_src] in D.
      * destruct (proot p) as [s'|] eqn:R; [|cbn in Wx; tauto]. injection D as <-. apply in_map_iff in I. destruct I as (n' & Q & In').
        injection Q as -> <- <- ->. cbn in Wx. set (k := slo g + (i - (plo p + (slo g - a)))).
        assert (K : slo g <= k < shi g) by (unfold k; lia). destruct (Fk k K) as [F1 F2]. exists k. split; [lia|].
        split; [now apply F1|]. left. apply F2. exists (SLsp p a b). split; [exact Ix|]. left. f_equal; [exact R|]. unfold k. lia.
      * injection D as <-. destruct I.
      * injection D as <-. apply in_flat_map in I. destruct I as (p & Ip & I). apply in_flat_map in I. destruct I as (n' & In' & I).
        unfold full_read in I. destruct (proot p) as [s'|] eqn:R; [|destruct I]. destruct I as [[= -> <- <- ->]|[]].
        destruct (Fk (slo g)) as [F1 F2]; [lia|]. exists (slo g). split; [lia|]. split; [now apply F1|]. right. exists e'.
        split; [apply F2; exists (SOpq e'); split; [exact Ix|now left]|]. exists p. auto.
      * discriminate.
      * injection D as <-. destruct I as [Q|[]]. discriminate.
    + intros (k & K & C & Q). destruct (Cov k K) as (g & Ig & Kg). destruct (F g Ig) as (G1 & G2 & Wf & Fk).
      destruct (Fk k Kg) as [F1 F2]. apply F1 in C. assert (Ne : seg_ports g <> []) by (intros Z; rewrite Z in C; destruct C).
      destruct Q as [Q|(e' & Q & (p & Ip & R & L))].
      * apply F2 in Q. destruct Q as (x & Ix & Q). pose proof (Wf x Ix) as Wx.
        destruct x as [p a b|sg|e'|n' a b|v a b o]; cbn in Q; try (destruct Q as [Q|[]]; discriminate); [|destruct Q].
        destruct Q as [Q|[]]. injection Q as R <-. cbn in Wx.
        exists (plo p + (slo g - a)), (plo p + (slo g - a) + (shi g - slo g) - 1). split; [|lia].
        apply H. exists g, (SLsp p a b). eexists. split; [exact Ig|]. split; [exact Ix|]. split; [exact Ne|].
        split; [cbn [drive_src]; rewrite R; reflexivity|]. apply in_map_iff. exists n. auto.
      * apply F2 in Q. destruct Q as (x & Ix & Q).
        destruct x as [p' a b|sg|e''|n' a b|v a b o]; cbn in Q; try (destruct Q as [Q|[]]; discriminate); [|destruct Q].
        destruct Q as [[= ->]|[]]. exists (plo p), (phi p). split; [|exact L]. apply H. exists g, (SOpq e'). eexists.
        split; [exact Ig|]. split; [exact Ix|]. split; [exact Ne|]. split; [reflexivity|].
        apply in_flat_map. exists p. split; [exact Ip|]. apply in_flat_map. exists n. split; [exact C|]. unfold full_read. rewrite R. now left.
  - intros n s i (lo & hi & I & L). apply H in I. destruct I as (g & x & lx & Ig & Ix & Ne & D & I).
    destruct x as [p a b|sg|e'|n' a b|v a b o]; cbn [drive_src] in D; try discriminate; injection D as D || idtac.
    + destruct (proot p); injection D as <-; [|destruct I]. apply in_map_iff in I. destruct I as (n' & Q & _). discriminate.
    + subst lx. destruct I.
    + subst lx. apply in_flat_map in I. destruct I as (p & Ip & I). apply in_flat_map in I. destruct I as (n' & In' & I).
      unfold full_read in I. destruct (proot p); [|destruct I]. destruct I as [Q|[]]. discriminate.
    + subst lx. destruct I as [Q|[]]. discriminate.
  - intros n c. split.
    + intros (v & ns & I & In_ & Ic). apply H in I. destruct I as (g & x & lx & Ig & Ix & Ne & D & I).
      destruct (F g Ig) as (G1 & G2 & Wf & Fk). pose proof (Wf x Ix) as Wx.
      destruct x as [p a b|sg|e'|n' a b|v' a b o]; cbn [drive_src] in D.
      * destruct (proot p); injection D as <-; [|destruct I]. apply in_map_iff in I. destruct I as (n' & Q & _). discriminate.
      * injection D as <-. destruct I.
      * injection D as <-. apply in_flat_map in I. destruct I as (p & Ip & I). apply in_flat_map in I. destruct I as (n' & In' & I).
        unfold full_read in I. destruct (proot p); [|destruct I]. destruct I as [Q|[]]. discriminate.
      * discriminate.
      * injection D as <-. destruct I as [Q|[]]. injection Q as <- <-. cbn in Wx.
        rewrite (const_slice_ok V v' a g) in Ic by lia.
        destruct (In_nth _ _ vz Ic) as (j & Lj & Ej). rewrite firstn_length, skipn_length in Lj.
        destruct (Fk (slo g + j)) as [F1 F2]; [lia|]. exists (slo g + j). split; [lia|]. split; [now apply F1|].
        apply F2. exists (SConst v' a b o). split; [exact Ix|]. left. f_equal.
        rewrite <- Ej. rewrite <- (firstn_skipn (slo g - a) v') at 1. rewrite app_nth2; rewrite firstn_length; [|lia].
        replace (slo g + j - a - Nat.min (slo g - a) (length v')) with j by lia.
        rewrite <- (firstn_skipn (shi g - slo g) (skipn (slo g - a) v')) at 1. rewrite app_nth1; [reflexivity|].
        rewrite firstn_length, skipn_length. lia.
    + intros (k & K & C & Q). destruct (Cov k K) as (g & Ig & Kg). destruct (F g Ig) as (G1 & G2 & Wf & Fk).
      destruct (Fk k Kg) as [F1 F2]. apply F1 in C. assert (Ne : seg_ports g <> []) by (intros Z; rewrite Z in C; destruct C).
      apply F2 in Q. destruct Q as (x & Ix & Q). pose proof (Wf x Ix) as Wx.
      destruct x as [p a b|sg|e'|n' a b|v a b o]; cbn in Q; try (destruct Q as [Q|[]]; discriminate); [destruct Q|].
      destruct Q as [[= <-]|[]]. cbn in Wx. exists (const_slice v a g), (seg_ports g). split; [|split; [exact C|]].
      * apply H. exists g, (SConst v a b o). eexists. split; [exact Ig|]. split; [exact Ix|]. split; [exact Ne|].
        split; [reflexivity|]. now left.
      * rewrite (const_slice_ok V v a g) by lia.
        assert (Ek : nth (k - a) v vz = nth (k - slo g) (firstn (shi g - slo g) (skipn (slo g - a) v)) vz).
        { rewrite <- (firstn_skipn (slo g - a) v) at 1. rewrite app_nth2; rewrite firstn_length; [|lia].
          rewrite <- (firstn_skipn (shi g - slo g) (skipn (slo g - a) v)) at 1. rewrite app_nth1; rewrite ?firstn_length, ?skipn_length; [|lia].
          f_equal. lia. }
        rewrite Ek. apply nth_In. rewrite firstn_length, skipn_length. lia.
Qed.

Lemma connection_out m w (e : expr V) : in_port m w -> 0 < w -> typed nodyn e -> ew e = w ->
  exists l, handlePortConnection vz visit true true true m w e = Some l /\
    (forall n s i, drives_bit l n s i <-> exists k, k < w /\ carries m n k /\ In (ABit (Some s) i) (nth k (bits vz e) [])) /\
    (forall n s i, reads_bit l n s i <-> exists k, k < w /\ carries m n k /\
       exists e', In (AOpq e') (nth k (bits vz e) []) /\ visits visit e' s i) /\
    (forall v ns, ~ In (PConst v ns) l).
Proof.
  intros P W T Ew. destruct (connection_spec true m w e P W T Ew) as (gs & l & E & H & F & Cov).
  exists l. split; [exact E|]. split; [|split].
  - intros n s i. split.
    + intros (lo & hi & I & L). apply H in I. destruct I as (g & x & lx & Ig & Ix & Ne & D & I).
      destruct (F g Ig) as (G1 & G2 & Wf & Fk). pose proof (Wf x Ix) as Wx. destruct x as [p a b|sg|e'|n' a b|v a b o]; cbn [drive_src] in D.
      * destruct (proot p) as [s'|] eqn:R; [|cbn in Wx; tauto]. injection D as <-. apply in_map_iff in I. destruct I as (n' & Q & In').
        injection Q as -> <- <- ->. cbn in Wx. set (k := slo g + (i - (plo p + (slo g - a)))).
        assert (K : slo g <= k < shi g) by (unfold k; lia). destruct (Fk k K) as [F1 F2]. exists k. split; [lia|].
        split; [now apply F1|]. apply F2. exists (SLsp p a b). split; [exact Ix|]. left. f_equal; [exact R|]. unfold k. lia.
      * injection D as <-. destruct I.
      * injection D as <-. apply in_flat_map in I. destruct I as (p & Ip & I). apply in_flat_map in I. destruct I as (n' & In' & I).
        unfold full_read in I. destruct (proot p); [|destruct I]. destruct I as [Q|[]]. discriminate.
      * discriminate.
      * injection D as <-. destruct I.
    + intros (k & K & C & Q). destruct (Cov k K) as (g & Ig & Kg). destruct (F g Ig) as (G1 & G2 & Wf & Fk).
      destruct (Fk k Kg) as [F1 F2]. apply F1 in C. assert (Ne : seg_ports g <> []) by (intros Z; rewrite Z in C; destruct C).
      apply F2 in Q. destruct Q as (x & Ix & Q). pose proof (Wf x Ix) as Wx.
      destruct x as [p a b|sg|e'|n' a b|v a b o]; cbn in Q; try (destruct Q as [Q|[]]; discriminate); [|destruct Q].
      destruct Q as [Q|[]]. injection Q as R <-. cbn in Wx.
      exists (plo p + (slo g - a)), (plo p + (slo g - a) + (shi g - slo g) - 1). split; [|lia].
      apply H. exists g, (SLsp p a b). eexists. split; [exact Ig|]. split; [exact Ix|]. split; [exact Ne|].
      split; [cbn [drive_src]; rewrite R; reflexivity|]. apply in_map_iff. exists n. auto.
  - intros n s i. split.
    + intros (lo & hi & I & L). apply H in I. destruct I as (g & x & lx & Ig & Ix & Ne & D & I).
      destruct (F g Ig) as (G1 & G2 & Wf & Fk). destruct x as [p a b|sg|e'|n' a b|v a b o]; cbn [drive_src] in D.
      * destruct (proot p); injection D as <-; [|destruct I]. apply in_map_iff in I. destruct I as (n' & Q & _). discriminate.
      * injection D as <-. destruct I.
      * injection D as <-. apply in_flat_map in I. destruct I as (p & Ip & I). apply in_flat_map in I. destruct I as (n' & In' & I).
        unfold full_read in I. destruct (proot p) as [s'|] eqn:R; [|destruct I]. destruct I as [[= -> <- <- ->]|[]].
        destruct (Fk (slo g)) as [F1 F2]; [lia|]. exists (slo g). split; [lia|]. split; [now apply F1|]. exists e'.
        split; [apply F2; exists (SOpq e'); split; [exact Ix|now left]|]. exists p. auto.
      * discriminate.
      * injection D as <-. destruct I.
    + intros (k & K & C & (e' & Q & (p & Ip & R & L))). destruct (Cov k K) as (g & Ig & Kg). destruct (F g Ig) as (G1 & G2 & Wf & Fk).
      destruct (Fk k Kg) as [F1 F2]. apply F1 in C. assert (Ne : seg_ports g <> []) by (intros Z; rewrite Z in C; destruct C).
      apply F2 in Q. destruct Q as (x & Ix & Q).
      destruct x as [p' a b|sg|e''|n' a b|v a b o]; cbn in Q; try (destruct Q as [Q|[]]; discriminate); [|destruct Q].
      destruct Q as [[= ->]|[]]. exists (plo p), (phi p). split; [|exact L]. apply H. exists g, (SOpq e'). eexists.
      split; [exact Ig|]. split; [exact Ix|]. split; [exact Ne|]. split; [reflexivity|].
      apply in_flat_map. exists p. split; [exact Ip|]. apply in_flat_map. exists n. split; [exact C|]. unfold full_read. rewrite R. now left.
  - intros v ns I. apply H in I. destruct I as (g & x & lx & Ig & Ix & Ne & D & I).
    destruct x as [p a b|sg|e'|n' a b|v' a b o]; cbn [drive_src] in D.
    + destruct (proot p); injection D as <-; [|destruct I]. apply in_map_iff in I. destruct I as (n' & Q & _). discriminate.
    + injection D as <-. destruct I.
    + injection D as <-. apply in_flat_map in I. destruct I as (p & Ip & I). apply in_flat_map in I. destruct I as (n' & In' & I).
      unfold full_read in I. destruct (proot p); [|destruct I]. destruct I as [Q|[]]. discriminate.
    + discriminate.
    + injection D as <-. destruct I.
Qed.

Lemma connection_ordered output m w (e : expr V) l : in_port m w -> 0 < w -> typed nodyn e -> ew e = w ->
  handlePortConnection vz visit true true output m w e = Some l -> forall sy lo hi n, In (PDrive sy lo hi n) l -> lo <= hi.
Proof.
  intros P W T Ew E sy lo hi n I. destruct (connection_spec output m w e P W T Ew) as (gs & l' & E' & H & F & _).
  rewrite E in E'. injection E' as <-. apply H in I. destruct I as (g & x & lx & Ig & Ix & Ne & D & I).
  destruct (F g Ig) as (G1 & _ & _ & _). destruct x as [p a b|sg|e'|n' a b|v' a b o]; cbn [drive_src] in D.
  - destruct (proot p); injection D as <-; [|destruct I]. apply in_map_iff in I. destruct I as (n' & Q & _).
    destruct output; [|discriminate]. injection Q as _ <- <- _. lia.
  - injection D as <-. destruct I.
  - injection D as <-. apply in_flat_map in I. destruct I as (p & Ip & I). apply in_flat_map in I. destruct I as (n' & In' & I).
    unfold full_read in I. destruct (proot p); [|destruct I]. destruct I as [Q|[]]. discriminate.
  - discriminate.
  - injection D as <-. destruct output; [destruct I|]. destruct I as [Q|[]]. discriminate.
Qed.

Lemma connection_reads_ordered output m w (e : expr V) l : in_port m w -> 0 < w -> typed nodyn e -> ew e = w ->
  (forall e' p, In p (visit e') -> plo p <= phi p) ->
  handlePortConnection vz visit true true output m w e = Some l -> forall sy lo hi n, In (PRead sy lo hi n) l -> lo <= hi.
Proof.
  intros P W T Ew Vo E sy lo hi n I. destruct (connection_spec output m w e P W T Ew) as (gs & l' & E' & H & F & _).
  rewrite E in E'. injection E' as <-. apply H in I. destruct I as (g & x & lx & Ig & Ix & Ne & D & I).
  destruct (F g Ig) as (G1 & _ & _ & _). destruct x as [p a b|sg|e'|n' a b|v' a b o]; cbn [drive_src] in D.
  - destruct (proot p); injection D as <-; [|destruct I]. apply in_map_iff in I. destruct I as (n' & Q & _).
    destruct output; [discriminate|]. injection Q as _ <- <- _. lia.
  - injection D as <-. destruct I.
  - injection D as <-. apply in_flat_map in I. destruct I as (p & Ip & I). apply in_flat_map in I. destruct I as (n' & In' & I).
    unfold full_read in I. destruct (proot p); [|destruct I]. destruct I as [[= <- <- <- <-]|[]]. exact (Vo e' p Ip).
  - discriminate.
  - injection D as <-. destruct output; [destruct I|]. destruct I as [Q|[]]. discriminate.
Qed.

(** * Cuts of an actual *)
Section Cuts.
Variable h : hints.
Hypothesis Sh : sorted_hints h.

Lemma bset_range (e : expr V) j : typed nodyn e -> bset V h e j -> 0 < j <= ew e.
Proof.
  intros T B. destruct (build_bset V vz h Sh e T [] 0 eq_refl) as (new & _ & Tn & Bn).
  destruct (proj2 (Bn j)) as (s & I & E); [exists j; split; [exact B|reflexivity]|].
  pose proof (tiled_bounds V _ _ _ _ Tn I). lia.
Qed.
Lemma bset_end (e : expr V) : typed nodyn e -> 0 < ew e -> bset V h e (ew e).
Proof.
  intros T L. destruct (build_bset V vz h Sh e T [] 0 eq_refl) as (new & _ & Tn & Bn).
  destruct (find_some_tiled V new 0 (ew e) (ew e - 1) Tn) as (s & _ & I & K); [lia|].
  pose proof (tiled_bounds V _ _ _ _ Tn I).
  destruct (proj1 (Bn (chi s))) as (j & B & E); [exists s; auto|]. replace (ew e) with j by lia. exact B.
Qed.

Lemma concat_fold (base total : nat) : forall es : list (expr V),
  fst (fold_right (concat_step (actual_cuts h) total) (base, []) es) = base + list_sum (map ew es) /\
  forall c, In c (snd (fold_right (concat_step (actual_cuts h) total) (base, []) es)) <->
    exists a x b, es = a ++ x :: b /\
      (In c (actual_cuts h (base + list_sum (map ew b)) x) \/
       c = base + list_sum (map ew b) + ew x /\ c <> total).
Proof.
  induction es as [|x es (IH1 & IH2)].
  - split; [cbn; lia|]. intros c. cbn. split; [intros []|intros (a & x & b & E & _); destruct a; discriminate].
  - cbn [fold_right map list_sum]. unfold concat_step at 1 3. cbn [fst snd]. rewrite IH1. split; [cbn; unfold list_sum; lia|].
    intros c. rewrite !in_app_iff, IH2. split.
    + intros [(a & y & b & -> & H)|[H|H]].
      * exists (x :: a), y, b. auto.
      * exists [], x, es. auto.
      * exists [], x, es. split; [reflexivity|]. right. destruct (Nat.eqb_spec (base + list_sum (map ew es) + ew x) total) as [|N]; [destruct H|].
        destruct H as [<-|[]]. auto.
    + intros (a & y & b & E & H). destruct a as [|z a]; injection E as -> ->.
      * right. destruct H as [H|[-> N]]; [auto|]. right. destruct (Nat.eqb_spec (base + list_sum (map ew b) + ew y) total) as [|_]; [contradiction|now left].
      * left. exists a, y, b. auto.
Qed.
Lemma repl_in (f : nat -> list nat) base unit total c : forall n i,
  In c (repl_cuts f base unit total i n) <-> exists j, i <= j < i + n /\
    (In c (f (base + j * unit)) \/ c = base + (j + 1) * unit /\ c <> total).
Proof.
  induction n as [|n IH]; intros i; cbn [repl_cuts].
  - split; [intros []|intros (j & L & _); lia].
  - rewrite !in_app_iff, IH. split.
    + intros [H|[H|(j & L & H)]].
      * exists i. split; [lia|auto].
      * exists i. split; [lia|]. right. destruct (Nat.eqb_spec (base + (i + 1) * unit) total) as [|N]; [destruct H|]. destruct H as [<-|[]]. auto.
      * exists j. split; [lia|exact H].
    + intros (j & L & H). destruct (Nat.eq_dec j i) as [->|N].
      * destruct H as [H|[-> N]]; [auto|]. right. left.
        destruct (Nat.eqb_spec (base + (i + 1) * unit) total) as [|_]; [contradiction|now left].
      * right. right. exists j. split; [lia|exact H].
Qed.
Lemma lsp_in base p c : In c (lsp_cuts h base p) <-> exists d, In d (splits h p) /\ c = base + (d - plo p).
Proof.
  unfold lsp_cuts, splits. destruct (proot p) as [s|]; [destruct (h s) as [l|]|].
  - rewrite in_map_iff. split; intros (d & A & B); exists d; auto.
  - split; [intros []|intros (d & [] & _)].
  - split; [intros []|intros (d & [] & _)].
Qed.

Lemma cat_point w : forall b a : list (expr V), (forall y, In y b -> typed nodyn y) -> 0 < list_sum (map ew b) ->
  bset V h (EConcat w (a ++ b)) (list_sum (map ew b)).
Proof.
  induction b as [|y b IH]; intros a T L; [cbn in L; lia|]. change (list_sum (map ew (y :: b))) with (ew y + list_sum (map ew b)) in *.
  destruct (Nat.eq_dec (ew y) 0) as [Z|Z].
  - rewrite Z in *. replace (a ++ y :: b) with ((a ++ [y]) ++ b) by (rewrite <- app_assoc; reflexivity).
    apply IH; [intros u I; apply T; now right|exact L].
  - rewrite Nat.add_comm. apply BCat, bset_end; [apply T; now left|lia].
Qed.

Lemma cuts_sound : forall e : expr V, typed nodyn e -> concat_shaped e -> forall base c,
  In c (actual_cuts h base e) -> exists j, c = base + j /\ j <= ew e /\ (0 < j -> bset V h e j).
Proof.
  apply (expr_rect' V (fun e => typed nodyn e -> concat_shaped e -> forall base c,
    In c (actual_cuts h base e) -> exists j, c = base + j /\ j <= ew e /\ (0 < j -> bset V h e j))).
  - intros p w (A & Ew & R) _ base c I. cbn [actual_cuts] in I. apply lsp_in in I. destruct I as (d & I & ->).
    destruct (splits_spec h p Sh) as [_ SI]. pose proof (proj1 (SI d) I). exists (d - plo p). split; [reflexivity|].
    cbn [ew]. split; [lia|]. intros _. constructor; [lia|exact I].
  - intros p w ops f _ (_ & []).
  - intros w es IH (-> & T) Cs base c I. cbn [actual_cuts] in I. apply all_Forall in T.
    cbn [concat_shaped] in Cs. apply all_Forall in Cs. rewrite Forall_forall in IH, T, Cs.
    apply (concat_fold base) in I. destruct I as (a & x & b & -> & I).
    assert (Ix : In x (a ++ x :: b)) by (apply in_app_iff; right; now left).
    assert (Sx : list_sum (map ew b) + ew x <= ew (EConcat (list_sum (map ew (a ++ x :: b))) (a ++ x :: b))).
    { cbn [ew]. rewrite map_app, list_sum_app. change (map ew (x :: b)) with (ew x :: map ew b). cbn [list_sum fold_right]. unfold list_sum. lia. }
    assert (Tb : forall y, In y b -> typed nodyn y) by (intros y I2; apply T, in_app_iff; right; now right).
    assert (Cp : forall w, 0 < list_sum (map ew b) -> bset V h (EConcat w (a ++ x :: b)) (list_sum (map ew b))).
    { intros w L. replace (a ++ x :: b) with ((a ++ [x]) ++ b) by (rewrite <- app_assoc; reflexivity). now apply cat_point. }
    destruct I as [I|[-> N]].
    + destruct (IH x Ix (T x Ix) (Cs x Ix) _ _ I) as (j & -> & Lj & Bj). exists (list_sum (map ew b) + j). split; [lia|]. split; [lia|].
      intros L. destruct (Nat.eq_dec j 0) as [->|Z]; [rewrite Nat.add_0_r in *; apply Cp, L|apply BCat, Bj; lia].
    + exists (list_sum (map ew b) + ew x). split; [lia|]. split; [exact Sx|]. intros L.
      destruct (Nat.eq_dec (ew x) 0) as [Z|Z]; [rewrite Z, Nat.add_0_r in *; apply Cp, L|].
      apply BCat, bset_end; [apply T; exact Ix|lia].
  - intros w [n|] x IH T Cs base c I; cbn [actual_cuts] in I; [|destruct I]. destruct T as [-> T].
    destruct (Z.leb_spec n 0) as [|Ln]; [destruct I|]. apply repl_in in I. destruct I as (i & Li & I). cbn [ew].
    assert (St : i * ew x + ew x <= Z.to_nat n * ew x) by nia.
    destruct I as [I|[-> N]].
    + destruct (IH T Cs _ _ I) as (j & -> & Lj & Bj). exists (i * ew x + j). split; [lia|]. split; [lia|]. intros L.
      destruct (Nat.eq_dec j 0) as [->|Z]; [|apply BRep; [lia|apply Bj; lia]].
      destruct i as [|i]; [lia|]. replace (S i * ew x + 0) with (i * ew x + ew x) by lia. apply BRep; [lia|]. apply bset_end; [exact T|nia].
    + exists (i * ew x + ew x). split; [lia|]. split; [lia|]. intros L. apply BRep; [lia|]. apply bset_end; [exact T|nia].
  - intros w prop si so fold x IH T [Nc Cs] base c I. cbn [actual_cuts ew] in *. cbn [typed] in T. apply folded_none in Nc.
    destruct (Nat.eqb_spec w (ew x)) as [E|Ne].
    + destruct T as [T|T]; [lia|]. destruct (IH T Cs _ _ I) as (j & -> & Lj & Bj). exists j. split; [reflexivity|]. split; [lia|].
      intros L. apply BConv; [exact Nc|lia|auto].
    + destruct (Nat.ltb_spec (ew x) w) as [L|L]; [|destruct I]. destruct T as [T|T]; [lia|]. apply in_app_iff in I. destruct I as [I|[<-|[]]].
      * destruct (IH T Cs _ _ I) as (j & -> & Lj & Bj). exists j. split; [reflexivity|]. split; [lia|].
        intros Lj0. apply BConv; [exact Nc|lia|auto].
      * exists (ew x). split; [reflexivity|]. split; [lia|]. intros Lx. apply BConv; [exact Nc|lia|apply bset_end; auto].
  - intros w si c l r m _ _ _ _ _ base d I. destruct I.
  - intros w fold ops f _ _ _ base d I. destruct I.
Qed.

Lemma cuts_complete : forall e : expr V, typed nodyn e -> concat_shaped e -> forall base j,
  bset V h e j -> j < ew e -> In (base + j) (actual_cuts h base e).
Proof.
  apply (expr_rect' V (fun e => typed nodyn e -> concat_shaped e -> forall base j,
    bset V h e j -> j < ew e -> In (base + j) (actual_cuts h base e))).
  - intros p w (A & Ew & R) _ base j B L. cbn [actual_cuts ew] in *. apply lsp_in. inversion B; subst; [lia|]. eauto.
  - intros p w ops f _ (_ & []).
  - intros w es IH (-> & T) Cs base j B L. cbn [actual_cuts]. cbn [ew] in L. apply all_Forall in T.
    cbn [concat_shaped] in Cs. apply all_Forall in Cs. rewrite Forall_forall in IH, T, Cs.
    destruct (bset_cat_inv _ _ _ _ _ B) as (a & x & b & k & E & Bk & ->). subst es. apply (concat_fold base). exists a, x, b. split; [reflexivity|].
    assert (Ix : In x (a ++ x :: b)) by (apply in_app_iff; right; now left).
    pose proof (bset_range x k (T x Ix) Bk). destruct (Nat.eq_dec k (ew x)) as [->|Nk].
    + right. split; lia.
    + left. rewrite Nat.add_assoc. apply IH; auto. lia.
  - intros w [n|] x IH T Cs base j B L; cbn [actual_cuts].
    + destruct T as [-> T]. cbn [ew] in L. inversion B as [| | | |? ? ? i k Li Bk| | | | | | | |]; subst.
      destruct (Z.leb_spec n 0) as [|Ln]; [lia|]. apply repl_in. exists i. split; [lia|]. pose proof (bset_range x k T Bk).
      destruct (Nat.eq_dec k (ew x)) as [->|Nk].
      * right. split; lia.
      * left. rewrite Nat.add_assoc. apply IH; auto. lia.
    + inversion B; subst. cbn [ew] in L. lia.
  - intros w prop si so fold x IH T [Nc Cs] base j B L. cbn [actual_cuts ew] in *. cbn [typed] in T. inversion B; subst; try lia.
    assert (Tx : typed nodyn x) by (destruct T; [lia|auto]). match goal with Q : bset V h x j |- _ => pose proof (bset_range x j Tx Q) end.
    destruct (Nat.eqb_spec w (ew x)) as [E|Ne]; [apply IH; auto; lia|].
    destruct (Nat.ltb_spec (ew x) w) as [Lw|Lw]; [|lia]. apply in_app_iff.
    destruct (Nat.eq_dec j (ew x)) as [->|Nj]; [right; now left|]. left. apply IH; auto. lia.
  - intros w si c l r m _ _ _ T Cs base j B L. cbn [concat_shaped ew] in *. inversion B; subst; try lia; exfalso; apply Cs; auto.
  - intros w fold ops f _ T _ base j B L. inversion B; subst. cbn [ew] in L. lia.
Qed.

Lemma cuts_boundary (e : expr V) c : typed nodyn e -> concat_shaped e -> 0 < c < ew e ->
  (In c (actual_cuts h 0 e) <-> boundary (build vz h e []) c).
Proof.
  intros T Cs L. destruct (build_bset V vz h Sh e T [] 0 eq_refl) as (new & E & _ & Bn). cbn [app] in E. rewrite E, Bn. split.
  - intros I. destruct (cuts_sound e T Cs 0 c I) as (j & -> & _ & B). exists j. split; [apply B; lia|reflexivity].
  - intros (j & B & ->). apply (cuts_complete e T Cs 0 j B). lia.
Qed.
End Cuts.
End C.
