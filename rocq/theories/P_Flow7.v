(** Proofs about whole designs: the connections of the ports. *)
From Coq Require Import Sorted.
From Verif Require Import Base M_Graph M_Range M_Netlist M_Annot M_Interval M_Heap M_Drivers M_Pending M_DFA M_Builder M_Slice M_Port M_Flow
  S_Reach S_Netlist S_Annot S_Interval S_Drivers S_Pending S_DFA S_Builder S_Slice S_Port S_Flow
  P_Interval P_Heap P_Drivers P_DriversX P_Annot P_Pending P_DFA P_DFA2 P_Builder P_Slice P_Slice2 P_Port P_Port2 P_Port3 P_Flow2 P_Flow3 P_Flow4 P_Flow5 P_Flow6.

Lemma lv_path {V} (vz : V) (e : expr V) : lvalue e -> typed nodyn e -> forall t i, In (t, i) (lbits e) ->
  exists q, In q (lpaths e) /\ proot q = Some t /\ plo q <= i <= phi q.
Proof.
  intros Lv T t i. destruct (lv_bits vz e Lv T) as (_ & _ & E & _). rewrite E. intros I. apply in_flat_map in I. destruct I as (q & I & J).
  apply in_rev in I. apply in_pbits in J. exists q. split; [exact I|]. destruct J. split; [assumption|lia].
Qed.

Section Acts.
Context {V : Type}.
Variable vz : V.
Variable m : list (iv nat).
Variable w : nat.
Hypothesis Pm : in_port m w.
Hypothesis W : 0 < w.

(** * What an input reads *)
Definition in_acts (e : expr V) (l : list (@pact V)) : Prop :=
  (forall sy lo hi n, ~ In (PDrive sy lo hi n) l) /\
  forall n k, carries m n k -> k < w -> exists A, incl A (reads e) /\ (forall s i, In (s, i) A -> reads_bit l n s i) /\
    forall v1 v2, agree v1 v2 A -> nth k (eval vz v1 e) vz = nth k (eval vz v2 e) vz.

Lemma legacy_in (e : expr V) : paths_ok e -> in_acts e (M_Port.legacy epaths m false e).
Proof.
  intros P. split.
  - intros sy lo hi n I. unfold M_Port.legacy in I. apply in_flat_map in I. destruct I as (p & _ & I). destruct (proot p); [|destruct I].
    apply in_map_iff in I. destruct I as (x & E & _). discriminate.
  - intros n k (x & Ix & <- & L) _. exists (reads e). split; [apply incl_refl|]. split.
    + intros s i I. apply (reads_paths e P) in I. destruct I as (p & Ip & R & Li). exists (plo p), (phi p). split; [|exact Li].
      unfold M_Port.legacy. apply in_flat_map. exists p. split; [exact Ip|]. rewrite R. apply in_map_iff. exists x. auto.
    + intros v1 v2 Ag. now rewrite (reads_eval V vz v1 v2 e Ag).
Qed.
Lemma aligned_in (e : expr V) : paths_ok e -> typed nodyn e -> ew e = w -> sized vz e -> folds_ok vz e -> unsigned_ext e ->
  exists l, handlePortConnection vz epaths true true false m w e = Some l /\ in_acts e l.
Proof.
  intros P T Ew Sz Fo Un. destruct (connection_in vz epaths m w e Pm W T Ew) as (l & E & R & D & _). exists l. split; [exact E|]. split.
  - intros sy lo hi n I. apply (D n sy lo). exists lo, hi. split; [exact I|]. split; [lia|].
    eapply connection_ordered; eauto.
  - intros n k C K. exists (flat_map atom_reads (nth k (bits vz e) [])). split; [|split].
    + intros x I. apply in_flat_map in I. destruct I as (a & Ia & I). destruct (atom_sub vz e P k a Ia) as [_ H]. now apply H.
    + intros s i I. apply R. exists k. split; [exact K|]. split; [exact C|]. apply in_flat_map in I. destruct I as (a & Ia & I).
      destruct a as [[s'|] i'| |e'|c]; cbn in I; try (now destruct I).
      * destruct I as [I|[]]. inversion I; subst. now left.
      * right. exists e'. split; [exact Ia|]. destruct (atom_sub vz e P k _ Ia) as [H _]. apply (reads_paths e' (H e' eq_refl)) in I.
        destruct I as (p & I). exists p. exact I.
    + intros v1 v2 Ag. destruct (bits_sound V vz v1 v2 e T Sz Fo Un) as (_ & _ & B). apply B; [|exact Ag]. rewrite (bits_length V vz e T). lia.
Qed.

(** * What an output drives *)
Definition out_acts (e : expr V) (l : list (@pact V)) : Prop :=
  (forall sy lo hi n, In (PDrive sy lo hi n) l -> lo <= hi /\ exists q, In q (lpaths e) /\ proot q = Some sy /\ plo q <= lo /\ hi <= phi q) /\
  forall n k t i, carries m n k -> nth_error (lbits e) k = Some (t, i) -> drives_bit l n t i.

(** A driven range is a run of bits of the actual that the node carries. *)
Definition run_acts (e : expr V) (l : list (@pact V)) : Prop :=
  forall sy lo hi n, In (PDrive sy lo hi n) l -> exists k, forall x, lo <= x <= hi ->
    nth_error (lbits e) (k + (x - lo)) = Some (sy, x) /\ carries m n (k + (x - lo)).
Lemma aligned_run (e : expr V) l : lvalue e -> typed nodyn e -> ew e = w ->
  handlePortConnection vz epaths true true true m w e = Some l -> run_acts e l.
Proof.
  intros Lv T Ew E sy lo hi n I. destruct (connection_spec vz epaths true m w e Pm W T Ew) as (gs & l' & E' & H & F & _).
  rewrite E in E'. injection E' as <-. apply H in I. destruct I as (g & x & lx & Ig & Ix & Ne & D & I).
  destruct (F g Ig) as (G1 & G2 & Wx & Fk). pose proof (Wx x Ix) as Ws. destruct x as [p a b|sg|e'|n' a b|v a b o]; cbn [drive_src] in D.
  - destruct (proot p) as [s'|] eqn:R; [|cbn in Ws; tauto]. injection D as <-. apply in_map_iff in I. destruct I as (n' & Q & In').
    injection Q as -> <- <- ->. cbn in Ws. exists (slo g). intros x L. set (k := slo g + (x - (plo p + (slo g - a)))).
    assert (K : slo g <= k < shi g) by (unfold k; lia). destruct (Fk k K) as [F1 F2]. split; [|now apply F1].
    assert (A : In (ABit (Some sy) x) (nth k (bits vz e) [])).
    { apply F2. exists (SLsp p a b). split; [exact Ix|]. left. f_equal; [exact R|]. unfold k. lia. }
    destruct (lv_bits vz e Lv T) as (Eb & _). rewrite Eb in A. fold k. destruct (nth_error (lbits e) k) as [[t j]|] eqn:En.
    + erewrite nth_error_nth in A by (rewrite nth_error_map, En; reflexivity). cbn in A. destruct A as [[= <- <-]|[]]. reflexivity.
    + rewrite nth_overflow in A; [destruct A|]. rewrite map_length. now apply nth_error_None.
  - injection D as <-. destruct I.
  - injection D as <-. apply in_flat_map in I. destruct I as (p & Ip & I). apply in_flat_map in I. destruct I as (n' & In' & I).
    unfold full_read in I. destruct (proot p); [|destruct I]. destruct I as [Q|[]]. discriminate.
  - discriminate.
  - injection D as <-. destruct I.
Qed.

Lemma legacy_out (e : expr V) : lvalue e -> typed nodyn e -> out_acts e (M_Port.legacy epaths m true e).
Proof.
  intros Lv T. destruct (lv_bits vz e Lv T) as (_ & _ & _ & Lp). split.
  - intros sy lo hi n I. unfold M_Port.legacy in I. rewrite (epaths_lpaths e Lv) in I. apply in_flat_map in I. destruct I as (p & Ip & I).
    destruct (Lp p Ip) as [_ L]. destruct (proot p) as [s|] eqn:R; [|destruct I]. apply in_map_iff in I. destruct I as (x & Q & _). inversion Q; subst.
    split; [exact L|]. exists p. auto.
  - intros n k t i (x & Ix & <- & L) K. apply nth_error_In in K. destruct (lv_path vz e Lv T t i K) as (q & Iq & R & Li).
    exists (plo q), (phi q). split; [|exact Li]. unfold M_Port.legacy. rewrite (epaths_lpaths e Lv). apply in_flat_map. exists q. split; [exact Iq|].
    rewrite R. apply in_map_iff. exists x. auto.
Qed.
Lemma aligned_out (e : expr V) : lvalue e -> typed nodyn e -> ew e = w ->
  exists l, handlePortConnection vz epaths true true true m w e = Some l /\ out_acts e l.
Proof.
  intros Lv T Ew. destruct (connection_out vz epaths m w e Pm W T Ew) as (l & E & D & _). exists l. split; [exact E|]. split.
  - intros sy lo hi n I. assert (Lo : lo <= hi) by (eapply connection_ordered; eauto). split; [exact Lo|].
    destruct (port_list_spec (V := V) m w Pm W) as [Tp _].
    destruct (lv_slices vz no_hints no_hints_sorted e Lv T [] 0 eq_refl) as (al & Ea & Te & Hs). cbn in Ea. rewrite Ew in Te. cbn in Te.
    destruct (build_list_spec V vz no_hints e no_hints_sorted T) as (_ & _ & Ge). rewrite Ea in Ge.
    unfold handlePortConnection in E. cbn [negb orb] in E. rewrite Ea, (tiled_width V _ _ Tp), (tiled_width V _ _ Te) in E.
    destruct (Nat.eqb_spec w 0) as [Z|_]; [lia|]. rewrite Nat.eqb_refl in E. cbn [negb] in E. fold (@buildPortSliceList V m w) in *.
    destruct (drive_segments_spec epaths true (alignSegments (buildPortSliceList m w) al)) as (l' & E' & H).
    { intros g x Ig Ix. destruct (align_facts V _ al w g Tp Te Ig) as (L1 & L2 & B & _ & _ & Sg).
      destruct (Sg (slo g)) as [_ S2]; [lia|]. rewrite <- S2 in Ix. apply (good_wf_src V al w g); auto. }
    rewrite E in E'. injection E' as <-. apply H in I. destruct I as (g & x & lx & Ig & Ix & _ & Dx & I).
    destruct (align_facts V _ al w g Tp Te Ig) as (L1 & L2 & B & _ & _ & Sg).
    destruct (Sg (slo g)) as [_ S2]; [lia|]. rewrite <- S2 in Ix. unfold srcs_at in Ix.
    destruct (find_some_tiled V al 0 w (slo g) Te) as (s & Fs & Is & Ks); [lia|]. rewrite Fs in Ix.
    destruct (Hs s Is) as (p & a & b & t & Es & Ip & R & La & Lb & _). rewrite Es in Ix. destruct Ix as [<-|[]].
    assert (C : chi s <= slo g \/ shi g <= chi s) by (apply B; right; exists s; auto).
    cbn [drive_src] in Dx. rewrite R in Dx. injection Dx as <-. apply in_map_iff in I. destruct I as (n' & Q & _). injection Q as <- <- <- _.
    exists p. split; [exact Ip|]. split; [exact R|]. lia.
  - intros n k t i C K. apply D. exists k. pose proof (nth_error_Some (lbits e) k) as L. rewrite K in L.
    rewrite (lv_length vz e Lv T), Ew in L. split; [apply L; discriminate|]. split; [exact C|].
    destruct (lv_bits vz e Lv T) as (-> & _). erewrite nth_error_nth; [|rewrite nth_error_map, K; reflexivity]. now left.
Qed.
End Acts.

Section F.
Context {V : Type}.
Variable vz : V.
Variable rb : bool.
Variable h : hints.
Variable nm : nat -> str.
Variable ports : list fport.
Variable conns : list (fconn V).
Variable asgs : list (fasg V).
Hypothesis Wf : wf_design vz rb h ports conns asgs.
Variable b1 : bld.
Variable ops : list (nat * range * nat).
Hypothesis Pm : ports_made h ports b1 ops.

Lemma pn_le n p lo hi : PN b1 n p lo hi -> lo <= hi.
Proof.
  intros I. destruct (pm_nodes _ _ _ _ Pm _ _ I) as (q & lo' & hi' & a & c & x & _ & E & _ & L & _). injection E as _ E1 E2. lia.
Qed.
Lemma entries b p x : bvt b = bvt b1 ->
  (In x (port_entries b p) <-> exists n lo hi, PN b1 n p lo hi /\ x = IV (Z.of_nat lo) (Z.of_nat hi) n).
Proof.
  intros Vt. unfold port_entries. rewrite Vt, (pm_vt _ _ _ _ Pm).
  destruct (history_map ops p (pm_apart _ _ _ _ Pm)) as (m & E & _ & M).
  assert (Em : match vt_run vt_empty ops p with Some m0 => m0 | None => [] end = m) by (destruct E as [->|[-> ->]]; reflexivity).
  rewrite Em, M. split.
  - intros (r & I & L & U). apply (pm_ops _ _ _ _ Pm) in I. destruct (pm_nodes _ _ _ _ Pm _ _ I) as (q & lo & hi & a & c & y & Iq & Ek & _ & Lo & _).
    injection Ek as -> ->. exists (ival x), lo, hi. split; [exact I|]. destruct (zlu lo hi) as [Z1 Z2]; [lia|]. destruct x; cbn in *. congruence.
  - intros (n & lo & hi & I & ->). pose proof (pn_le _ _ _ _ I). exists (zrange lo hi). cbn [ival ilo ihi]. destruct (zlu lo hi) as [Z1 Z2]; [lia|].
    split; [apply (pm_ops _ _ _ _ Pm), I|]. auto.
Qed.
Lemma carries_iff b p n k : bvt b = bvt b1 -> (carries (port_entries b p) n k <-> exists lo hi, PN b1 n p lo hi /\ lo <= k <= hi).
Proof.
  intros Vt. unfold carries. split.
  - intros (x & I & E & L). apply entries in I; [|exact Vt]. destruct I as (n' & lo & hi & I & ->). cbn in *. subst n'. exists lo, hi. split; [exact I|lia].
  - intros (lo & hi & I & L). exists (IV (Z.of_nat lo) (Z.of_nat hi) n). cbn. split; [apply entries; eauto|]. split; [reflexivity|lia].
Qed.
(** The bits of a node of port [p] lie in one driver. *)
Lemma node_driver p n lo hi : In p ports -> PN b1 n (fp_id p) lo hi -> exists a c x, In (a, c, x) (fp_drivers p) /\ a <= lo /\ hi <= c.
Proof.
  intros Ip I. destruct (pm_nodes _ _ _ _ Pm _ _ I) as (q & lo' & hi' & a & c & x & Iq & Ek & Id & L & L' & _).
  injection Ek as Ei E1 E2. assert (p = q) by (eapply same_id; eauto). subst q. exists a, c, x. split; [exact Id|]. lia.
Qed.
Lemma conn_port c : In c conns -> exists p, In p ports /\ fp_id p = fc_port c /\ fp_sy p = fc_sy c /\
  forall lo hi x, In (lo, hi, x) (fp_drivers p) -> hi < fc_w c /\ x = negb (fc_out c).
Proof. intros Ic. destruct (w_conn _ _ _ _ _ _ Wf c Ic) as (_ & _ & H). exact H. Qed.
Lemma conn_in_port b c : In c conns -> bvt b = bvt b1 -> in_port (port_entries b (fc_port c)) (fc_w c).
Proof.
  intros Ic Vt x I. destruct (conn_port c Ic) as (p & Ip & Ei & _ & D). rewrite <- Ei in I. apply entries in I; [|exact Vt].
  destruct I as (n & lo & hi & I & ->). cbn. pose proof (pn_le _ _ _ _ I). destruct (node_driver p n lo hi Ip I) as (a & d & x & Id & L1 & L2).
  destruct (D _ _ _ Id). lia.
Qed.

Lemma conn_bits v w c k : In c conns -> round vz conns asgs v w -> k < fc_w c -> nth k (eval vz (if fc_out c then w else v) (fc_actual c)) vz = (if fc_out c then v else w) (fc_sy c) k.
Proof.
  intros Ic [_ S] K. rewrite (S c Ic). rewrite (nth_indep _ vz ((if fc_out c then v else w) (fc_sy c) 0)) by (now rewrite map_length, seq_length).
  rewrite map_nth, seq_nth by exact K. reflexivity.
Qed.

(** A bit of an output port without a node is not driven. *)
Lemma no_node c k : In c conns -> fc_out c = true -> (forall n lo hi, PN b1 n (fc_port c) lo hi -> ~ lo <= k <= hi) -> ~ driven ports conns asgs (fc_sy c) k.
Proof.
  intros Ic Out No. destruct (conn_port c Ic) as (p & Ip & Ei & Es & D). rewrite <- Ei in No.
  assert (Nd : forall a d x, In (a, d, x) (fp_drivers p) -> ~ a <= k <= d).
  { intros a d x I L. destruct (pm_cover _ _ _ _ Pm p a d x k Ip I L) as (n & lo & hi & N & L'). eapply No; eauto. }
  assert (Lv : forall e : expr V, lvalue e -> typed nodyn e -> in_driver ports e -> ~ In (fc_sy c, k) (lbits e)).
  { intros e Lv T Id I. destruct (lv_path vz e Lv T _ _ I) as (q & Iq & R & L). rewrite <- Es in R.
    destruct (Id q p Iq Ip R) as (lo & hi & x & J & L1 & L2). apply (Nd lo hi x J). lia. }
  intros [q Iq Eq (lo & hi & I & L)|a Ia I|c' Ic' Oc I].
  - assert (q = p) by (eapply same_sy; eauto; congruence). subst q. eapply Nd; eauto.
  - destruct (w_lhs _ _ _ _ _ _ Wf a Ia) as (A1 & A2 & _ & A3 & _). exact (Lv _ A1 A2 A3 I).
  - destruct (w_out _ _ _ _ _ _ Wf c' Ic' Oc) as (A1 & A2 & A3 & _). exact (Lv _ A1 A2 A3 I).
Qed.

Lemma node_dec p k : {n | exists lo hi, PN b1 n p lo hi /\ lo <= k <= hi} + {forall n lo hi, PN b1 n p lo hi -> ~ lo <= k <= hi}.
Proof.
  set (f := fun x : nat * bnode => match snd x with BPort q r => Nat.eqb q p && (lower r <=? Z.of_nat k)%Z && (Z.of_nat k <=? upper r)%Z | _ => false end).
  destruct (find f (bnodes b1)) as [[n kd]|] eqn:E.
  - left. exists n. apply find_some in E. destruct E as [I F]. unfold f in F. cbn in F. 
    destruct (pm_nodes _ _ _ _ Pm _ _ I) as (q & lo & hi & a & c & x & Iq & Ek & _ & Lo & _). subst kd.
    destruct (zlu lo hi) as [Z1 Z2]; [lia|]. rewrite Z1, Z2 in F. exists lo, hi. unfold PN. destruct (Nat.eqb_spec (fp_id q) p) as [<-|]; [|discriminate]. split; [exact I|lia].
  - right. intros n lo hi I L. pose proof (find_none _ _ E _ I) as F. unfold f in F. cbn in F. destruct (zlu lo hi) as [Z1 Z2]; [lia|].
    rewrite Z1, Z2, Nat.eqb_refl in F. lia.
Qed.

(** What an output connection asks for. *)
Lemma out_list b c : In c conns -> bvt b = bvt b1 -> fc_out c = true ->
  exists l, handlePortConnection vz epaths rb true true (port_entries b (fc_port c)) (fc_w c) (fc_actual c) = Some l /\ out_acts (port_entries b (fc_port c)) (fc_actual c) l /\
    forall t a d n l0 d0, In (PDrive t a d n) l -> h t = Some l0 -> In d0 l0 -> ~ a < d0 <= d.
Proof.
  intros Ic Vt Out. pose proof (conn_in_port b c Ic Vt) as Ip. destruct (w_conn _ _ _ _ _ _ Wf c Ic) as (Wp & Ew & p & Ipp & Ei & Es & Dv).
  set (m := port_entries b (fc_port c)) in *. destruct (w_out _ _ _ _ _ _ Wf c Ic Out) as (Lv & T & Id & Un).
  destruct rb.
  - destruct (aligned_out vz m (fc_w c) Ip Wp (fc_actual c) Lv T Ew) as (l & El & O). exists l. split; [exact El|]. split; [exact O|].
    intros t a d n l0 d0 I Eh Ih Ld. destruct (aligned_run vz m (fc_w c) Ip Wp (fc_actual c) l Lv T Ew El _ _ _ _ I) as (k & R).
    destruct (R (d0 - 1)) as [R1 R2]; [lia|]. destruct (R d0) as [R3 R4]; [lia|].
    replace (k + (d0 - a)) with (S (k + (d0 - 1 - a))) in R3, R4 by lia. set (k' := k + (d0 - 1 - a)) in *.
    destruct (Un k' t (d0 - 1) l0 R1) as (l' & Eh' & Ih'); [replace (S (d0 - 1)) with d0 by lia; exact R3|exact Eh|replace (S (d0 - 1)) with d0 by lia; exact Ih|].
    apply carries_iff in R2; [|exact Vt]. apply carries_iff in R4; [|exact Vt].
    destruct R2 as (lo & hi & N & L), R4 as (lo' & hi' & N' & L'). pose proof (pm_uniq _ _ _ _ Pm _ _ _ N N') as Q. injection Q as Q1 Q2.
    rewrite <- Es in Eh'. rewrite <- Ei in N. apply (pm_inner _ _ _ _ Pm p n lo hi l' (S k') Ipp N Eh' Ih'). lia.
  - exists (M_Port.legacy epaths m true (fc_actual c)). split; [reflexivity|]. destruct (legacy_out vz m (fc_actual c) Lv T) as [O1 O2].
    split; [split; assumption|]. intros t a d n l0 d0 I Eh Ih Ld. destruct (O1 _ _ _ _ I) as (Lad & q & Iq & R & Q1 & Q2).
    apply (Un q t l0 d0 Iq R Eh Ih). lia.
Qed.
(** What else drives bits. *)
Variable ex : nat -> nat -> Prop.
Hypothesis Hex : forall p k, In p ports -> ex (fp_sy p) k -> exists a d x, In (a, d, x) (fp_drivers p) /\ a <= k <= d.
Notation det := (det vz ports conns asgs ex).
Notation Prov := (Prov vz ports conns asgs ex b1).
Notation Dr := (Dr vz ports conns asgs ex b1).
Lemma no_node_ex c k : In c conns -> (forall n lo hi, PN b1 n (fc_port c) lo hi -> ~ lo <= k <= hi) -> ~ ex (fc_sy c) k.
Proof.
  intros Ic No Q. destruct (conn_port c Ic) as (p & Ip & Ei & Es & _). rewrite <- Es in Q. destruct (Hex p k Ip Q) as (a & d & x & I & L).
  destruct (pm_cover _ _ _ _ Pm p a d x k Ip I L) as (n & lo & hi & N & L'). rewrite Ei in N. eapply No; eauto.
Qed.

Lemma one_conn b c : In c conns -> gok b -> bvt b = bvt b1 -> bnext b1 <= bnext b ->
  exists b', connect vz rb nm ports b c = DOk b' /\ gok b' /\ grow b b' /\
    (fc_out c = false -> forall n lo hi k, PN b1 n (fc_port c) lo hi -> lo <= k <= hi -> Prov b' n (fc_sy c) k) /\
    (fc_out c = true -> forall t i, In (t, i) (lbits (fc_actual c)) -> Dr b' t i).
Proof.
  intros Ic G Vt Nx. pose proof (conn_in_port b c Ic Vt) as Ip. destruct (w_conn _ _ _ _ _ _ Wf c Ic) as (Wp & Ew & p & Ipp & Ei & Es & Dv).
  unfold connect. set (m := port_entries b (fc_port c)) in *. destruct (fc_out c) eqn:Out.
  - (* output *)
    destruct (w_out _ _ _ _ _ _ Wf c Ic Out) as (Lv & T & Id & Un).
    destruct (out_list b c Ic Vt Out) as (l & El & (O1 & O2) & O3). fold m in El, O2. rewrite El.
    destruct (acts_ok nm ports l b G) as (b' & Ea & G' & Gr & _ & Dd); [intros sy lo hi n I; now destruct (O1 _ _ _ _ I)|].
    exists b'. split; [exact Ea|]. split; [exact G'|]. split; [exact Gr|]. split; [discriminate|]. intros _ t i I.
    apply In_nth_error in I. destruct I as (k & K).
    assert (Kw : k < fc_w c). { rewrite <- Ew, <- (lv_length vz _ Lv T). apply nth_error_Some. congruence. }
    assert (Vk : forall v w, round vz conns asgs v w -> w t i = v (fc_sy c) k).
    { intros v w S. pose proof (conn_bits v w c k Ic S Kw) as Q. rewrite Out in Q. rewrite <- Q. destruct (lv_bits vz _ Lv T) as (_ & E & _). rewrite E. symmetry. apply nth_error_nth. rewrite nth_error_map, K. reflexivity. }
    destruct (node_dec (fc_port c) k) as [(n & lo & hi & N & L)|No].
    + left. exists n. destruct (O2 n k t i) as (a & d & Id' & La); [apply carries_iff; eauto|exact K|].
      destruct (Dd _ _ _ _ Id') as [D1 D2]. destruct (O1 _ _ _ _ Id') as (Lad & q & Iq & R & Q1 & Q2).
      split; [now apply D1|]. split; [|split; [|pose proof (pm_ids _ _ _ _ Pm _ _ N); pose proof (g_next _ _ Gr); lia]].
      * apply (hook_ok vz rb h nm ports conns asgs Wf b1 ops Pm b' n t a d i [n]); auto; [now left| | |].
        -- intros q' Iq' Eq'. destruct (Id q q' Iq Iq') as (lo0 & hi0 & x0 & I0 & L0 & L0'); [congruence|]. exists lo0, hi0, x0. split; [exact I0|lia].
        -- intros l0 d0 Eh Ih. exact (O3 _ _ _ _ _ _ Id' Eh Ih).
        -- now rewrite <- Vt.
      * right. exists (fun t' j => t' = fc_sy c /\ j = k). split.
        -- intros v1 w1 v2 w2 S1 S2 _ Ag. rewrite (Vk v1 w1 S1), (Vk v2 w2 S2). now apply Ag.
        -- intros t' j [-> ->]. right. exists p, lo, hi. rewrite Ei. split; [exact Ipp|]. split; [exact N|]. split; [exact Es|]. split; [exact L|].
           intros (a0 & c0 & I0 & _). destruct (Dv _ _ _ I0). discriminate.
    + right. intros v1 w1 v2 w2 S1 S2 U _. rewrite (Vk v1 w1 S1), (Vk v2 w2 S2). apply U; [now apply no_node|now apply no_node_ex].
  - (* input *)
    destruct (w_in _ _ _ _ _ _ Wf c Ic Out) as (P & Np & Rb).
    assert (H : exists l, handlePortConnection vz epaths rb true false m (fc_w c) (fc_actual c) = Some l /\ in_acts vz m (fc_w c) (fc_actual c) l).
    { destruct rb; [destruct (Rb eq_refl) as (R1 & R2 & R3 & R4); now apply aligned_in|]. exists (M_Port.legacy epaths m false (fc_actual c)). split; [reflexivity|now apply legacy_in]. }
    destruct H as (l & El & O1 & O2). rewrite El.
    destruct (acts_ok nm ports l b G) as (b' & Ea & G' & Gr & Rd' & _); [intros sy lo hi n I; now destruct (O1 _ _ _ _ I)|].
    exists b'. split; [exact Ea|]. split; [exact G'|]. split; [exact Gr|]. split; [|discriminate]. intros _ n lo hi k N L.
    assert (Kw : k < fc_w c). { rewrite <- Ei in N. destruct (node_driver p n lo hi Ipp N) as (a & d & x & Id & L1 & L2). destruct (Dv _ _ _ Id). lia. }
    destruct (O2 n k) as (A & A1 & A2 & A3); [apply carries_iff; eauto|exact Kw|].
    right. exists (fun t j => In (t, j) A). split.
    + intros v1 w1 v2 w2 S1 S2 _ Ag. pose proof (conn_bits v1 w1 c k Ic S1 Kw) as Q1. pose proof (conn_bits v2 w2 c k Ic S2 Kw) as Q2. rewrite Out in Q1, Q2. rewrite <- Q1, <- Q2. apply A3. exact Ag.
    + intros t j J. left. split; [|intros q Iq; eapply Np; [apply A1, J|exact Iq]]. destruct (A2 t j J) as (a & d & I & La).
      exists (Pend t (nm t) (zrange a d) (Some n) EKNone). split; [now apply Rd'|]. cbn. split; [reflexivity|]. split; [reflexivity|]. rewrite zbit; lia.
Qed.

Lemma all_conns : forall l b, incl l conns -> gok b -> bvt b = bvt b1 -> bnext b1 <= bnext b ->
  exists b', connect_all vz rb nm ports b l = DOk b' /\ gok b' /\ grow b b' /\
    (forall c n lo hi k, In c l -> fc_out c = false -> PN b1 n (fc_port c) lo hi -> lo <= k <= hi -> Prov b' n (fc_sy c) k) /\
    (forall c t i, In c l -> fc_out c = true -> In (t, i) (lbits (fc_actual c)) -> Dr b' t i).
Proof.
  induction l as [|c l IH]; intros b Il G Vt Nx; cbn [connect_all].
  - exists b. split; [reflexivity|]. split; [exact G|]. split; [apply grow_refl|]. split; [intros c n lo hi k []|intros c t i []].
  - destruct (one_conn b c (Il c (or_introl eq_refl)) G Vt Nx) as (b2 & E2 & G2 & W2 & P2 & D2). rewrite E2. cbn [dbind].
    destruct (IH b2) as (b3 & E3 & G3 & W3 & P3 & D3); auto; [intros x I; apply Il; now right|rewrite (g_vt _ _ W2); exact Vt|pose proof (g_next _ _ W2); lia|].
    exists b3. split; [exact E3|]. split; [exact G3|]. split; [eapply grow_trans; eauto|]. split.
    + intros c' n lo hi k [<-|I] Oc N L; [eapply Prov_grow; eauto|eapply P3; eauto].
    + intros c' t i [<-|I] Oc N; [eapply Dr_grow; eauto|eapply D3; eauto].
Qed.
End F.
