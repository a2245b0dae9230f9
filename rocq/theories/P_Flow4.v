(** Proofs about whole designs: one continuous assignment. *)
From Coq Require Import Sorted.
From Verif Require Import Base M_Graph M_Range M_Netlist M_Annot M_Interval M_Heap M_Drivers M_Pending M_DFA M_Builder M_Slice M_Port M_Flow
  S_Reach S_Netlist S_Interval S_Drivers S_DFA S_Slice S_Port S_Flow
  P_Interval P_Heap P_Drivers P_DriversX P_DFA P_DFA2 P_Slice P_Slice2 P_Flow2 P_Flow3.

Lemma pairs_sorted : forall cs, StronglySorted lt cs -> StronglySorted (fun x y => snd x <= fst y) (pairs cs).
Proof.
  induction cs as [|x cs IH]; intros S; [constructor|]. destruct cs as [|y cs]; [constructor|]. rewrite pairs_cons.
  inversion S as [|? ? S2 F]; subst. constructor; [now apply IH|]. apply Forall_forall. intros [a b] I. cbn.
  destruct (pairs_gap _ _ _ S2 I) as (_ & A & _ & _). destruct A as [->|A]; [auto|].
  inversion S2 as [|? ? S3 F3]; subst. rewrite Forall_forall in F3. specialize (F3 a A). lia.
Qed.
Lemma sorted_split {A} (R : A -> A -> Prop) : forall p g q g' r, StronglySorted R (p ++ g :: q ++ g' :: r) -> R g g'.
Proof.
  induction p as [|x p IH]; intros g q g' r S; cbn in S; inversion S as [|? ? S2 F]; subst.
  - rewrite Forall_forall in F. apply F, in_or_app. right. now left.
  - eapply IH; eauto.
Qed.
Lemma sorted_two {A} (R : A -> A -> Prop) : forall l g g', StronglySorted R l -> In g l -> In g' l -> g = g' \/ R g g' \/ R g' g.
Proof.
  induction l as [|x l IH]; intros g g' S I J; [destruct I|]. inversion S as [|? ? S2 F]; subst. rewrite Forall_forall in F.
  destruct I as [<-|I], J as [<-|J]; auto.
Qed.
Lemma sorted_map {A B} (f : A -> B) (R : A -> A -> Prop) (R' : B -> B -> Prop) : (forall x y, R x y -> R' (f x) (f y)) ->
  forall l, StronglySorted R l -> StronglySorted R' (map f l).
Proof.
  intros H. induction l as [|x l IH]; intros S; [constructor|]. inversion S as [|? ? S2 F]; subst. cbn. constructor; [auto|].
  apply Forall_map. eapply Forall_impl; [|exact F]. intros y. apply H.
Qed.

Lemma nth_error_same {A} (l : list A) i j x : NoDup l -> nth_error l i = Some x -> nth_error l j = Some x -> i = j.
Proof.
  intros N Hi Hj. rewrite NoDup_nth_error in N. apply N; [|congruence].
  apply nth_error_Some. congruence.
Qed.

Section A.
Context {V : Type}.
Variable vz : V.
Notation expr := (expr V).
Notation bits := (bits vz).
Notation eval := (eval vz).
Variable h : hints.
Hypothesis Sh : sorted_hints h.
Variables lhs rhs : expr.
Hypothesis Lv : lvalue lhs.
Hypothesis Tl : typed nodyn lhs.
Hypothesis Nd : NoDup (lbits lhs).
Hypothesis Po : paths_ok rhs.

(** What is shown of an assignment run as a list of segments. *)
Definition W_ok (W : trace) : Prop := forall t lo hi, inW W t lo hi -> exists q a b, In q (lpaths lhs) /\ proot q = Some t /\
  lo = Z.of_nat a /\ hi = Z.of_nat b /\ plo q <= a /\ a <= b /\ b <= phi q /\ forall l c, h t = Some l -> In c l -> ~ a < c <= b.
Definition G_ok (gs : list seg) : Prop := forall k t i, nth_error (lbits lhs) k = Some (t, i) -> exists g A, In g gs /\ rbit (slhs g) t (Z.of_nat i) /\
  incl A (reads rhs) /\ (forall t' j, In (t', j) A -> rbit (flat_map seg_reads (srhs g)) t' (Z.of_nat j)) /\
  forall v1 v2, agree v1 v2 A -> nth k (eval v1 rhs) vz = nth k (eval v2 rhs) vz.

Lemma lbit_path t i : In (t, i) (lbits lhs) -> exists q, In q (lpaths lhs) /\ proot q = Some t /\ plo q <= i <= phi q.
Proof.
  destruct (lv_bits vz lhs Lv Tl) as (_ & _ & E & _). rewrite E. intros I. apply in_flat_map in I. destruct I as (q & I & J).
  apply in_rev in I. apply in_pbits in J. exists q. split; [exact I|]. destruct J. split; [assumption|lia].
Qed.
Lemma path_lbit q t i : In q (lpaths lhs) -> proot q = Some t -> plo q <= i <= phi q -> In (t, i) (lbits lhs).
Proof.
  destruct (lv_bits vz lhs Lv Tl) as (_ & _ & E & _). rewrite E. intros I R L. apply in_flat_map. exists q. split; [apply -> in_rev; exact I|].
  apply in_pbits. split; [exact R|lia].
Qed.

(** * All at once *)
Lemma epaths_lpaths : forall e : expr, lvalue e -> epaths e = lpaths e.
Proof.
  apply (expr_rect' V (fun e => lvalue e -> epaths e = lpaths e)); try (intros; cbn in *; tauto).
  intros w es F L. cbn in *. rewrite all_in in L. rewrite Forall_forall in F. induction es as [|x es IH]; [reflexivity|].
  cbn. rewrite (F x), IH; auto using in_eq, in_cons. 
Qed.
(** The right side reads no bit that is written. *)
Definition no_self : Prop := forall s i, In (s, i) (reads rhs) -> ~ In (s, i) (lbits lhs).
(** What the run of a list of segments needs; the last part for blocking assignments. *)
Definition run_hyp (W : trace) (gs : list seg) : Prop := aligned_writes W /\
  (forall g t b, In g gs -> In (t, b) (slhs g) -> inW W t (lower b) (upper b)) /\
  (forall p g q g' r, gs = p ++ g :: q ++ g' :: r -> forall t i, ~ (rbit (slhs g) t i /\ rbit (slhs g') t i)) /\
  (no_self -> forall g g' t i, In g gs -> In g' gs -> rbit (flat_map seg_reads (srhs g)) t i -> ~ rbit (slhs g') t i).
Definition whole : seg := M_DFA.Seg (refs lhs) [ROpaque (refs rhs)].
Lemma whole_hyp : (forall q s l c, In q (lpaths lhs) -> proot q = Some s -> h s = Some l -> In c l -> ~ plo q < c <= phi q) ->
  let W := map (fun x => (0, fst x, snd x)) (refs lhs) in W_ok W /\ G_ok [whole] /\ run_hyp W [whole] /\
    (forall t i, rbit (refs lhs) t i -> exists j, i = Z.of_nat j /\ In (t, j) (lbits lhs)).
Proof.
  intros Un W. destruct (lv_bits vz lhs Lv Tl) as (_ & _ & Eb & Pp).
  assert (Lp : forall t b, In (t, b) (refs lhs) <-> exists q, In q (lpaths lhs) /\ proot q = Some t /\ b = zrange (plo q) (phi q)).
  { intros t b. rewrite in_refs, epaths_lpaths by exact Lv. reflexivity. }
  assert (InW : forall t lo hi, inW W t lo hi -> exists q, In q (lpaths lhs) /\ proot q = Some t /\ lo = Z.of_nat (plo q) /\ hi = Z.of_nat (phi q)).
  { intros t lo hi (l & b & I & E1 & E2). unfold W in I. apply in_map_iff in I. destruct I as ([t' b'] & E & I). cbn in E. inversion E; subst.
    apply Lp in I. destruct I as (q & I & R & ->). exists q. split; [exact I|]. split; [exact R|]. apply zlu. apply Pp, I. }
  assert (Al : aligned_writes W).
  { intros l t b l' b' I I'.
    destruct (InW t (lower b) (upper b)) as (q & Iq & Rq & E1 & E2); [exists l, b; auto|].
    destruct (InW t (lower b') (upper b')) as (q' & Iq' & Rq' & E1' & E2'); [exists l', b'; auto|].
    rewrite E1, E2, E1', E2'. destruct (Pp q Iq) as [_ Lq]. destruct (Pp q' Iq') as [_ Lq'].
    destruct (le_lt_dec (plo q') (phi q)) as [D|D]; [|right; lia]. destruct (le_lt_dec (plo q) (phi q')) as [D'|D']; [|right; lia].
    left. assert (q = q'); [|subst; auto]. rewrite Eb in Nd.
    apply (flat_map_same pbits (rev (lpaths lhs)) q q' (t, max (plo q) (plo q')) Nd).
    - apply -> in_rev; exact Iq.
    - apply -> in_rev; exact Iq'.
    - apply in_pbits. split; [exact Rq|lia].
    - apply in_pbits. split; [exact Rq'|lia]. }
  assert (Lb : forall t i, rbit (refs lhs) t i -> exists j, i = Z.of_nat j /\ In (t, j) (lbits lhs)).
  { intros t i (b & I & B). apply Lp in I. destruct I as (q & I & Rq & ->). rewrite zbit in B by (apply Pp, I).
    exists (Z.to_nat i). split; [lia|]. apply (path_lbit q t _ I Rq). lia. }
  split; [|split; [|split; [|exact Lb]]].
  - intros t lo hi I. destruct (InW t lo hi I) as (q & Iq & Rq & E1 & E2). exists q, (plo q), (phi q).
    repeat split; auto; [apply Pp, Iq|]. intros l c Hl Ic. eapply Un; eauto.
  - intros k t i K. apply nth_error_In in K. destruct (lbit_path t i K) as (q & Iq & Rq & Lq).
    eexists. exists (reads rhs). split; [now left|]. unfold whole. cbn [slhs srhs flat_map seg_reads]. rewrite app_nil_r. split; [|split; [apply incl_refl|split]].
    + exists (zrange (plo q) (phi q)). split; [apply Lp; eauto|]. rewrite zbit; lia.
    + intros t' j I. now apply refs_reads.
    + intros v1 v2 Ag. now rewrite (reads_eval V vz v1 v2 rhs Ag).
  - split; [exact Al|]. split; [|split].
    + intros g t b [<-|[]] I. exists 0, b. split; [|auto]. unfold W. apply in_map_iff. exists (t, b). auto.
    + intros p g q g' r Q. exfalso. apply (f_equal (@length _)) in Q. rewrite !app_length in Q. cbn in Q. rewrite app_length in Q. cbn in Q. lia.
    + intros Fr g g' t i [<-|[]] [<-|[]]. unfold whole. cbn. rewrite app_nil_r. intros R R'. destruct (refs_nat rhs t i Po R) as (k & ->).
      apply refs_reads in R; [|exact Po]. destruct (Lb t _ R') as (j & Ej & Ij). assert (j = k) by lia. subst j. exact (Fr t k R Ij).
Qed.
Lemma whole_ok : no_self -> (forall q s l c, In q (lpaths lhs) -> proot q = Some s -> h s = Some l -> In c l -> ~ plo q < c <= phi q) ->
  let W := map (fun x => (0, fst x, snd x)) (refs lhs) in
  forall nm n0, exists s', exec nm (fun _ => false) None (start n0) (SLegacy 0 true (refs lhs) (refs rhs)) = DOk s' /\
    sinv W s' [M_DFA.Seg (refs lhs) [ROpaque (refs rhs)]] /\ fle (fxs (start n0)) (fxs s') /\ W_ok W /\ G_ok [M_DFA.Seg (refs lhs) [ROpaque (refs rhs)]].
Proof.
  intros Fr Un W nm n0. destruct (whole_hyp Un) as (Hw & Hg & (R1 & R2 & R3 & R4) & _).
  destruct (run_whole nm W n0 (refs lhs) (refs rhs) R1) as (s' & E & Si & F).
  - intros t b I. apply (R2 whole t b (or_introl eq_refl) I).
  - intros t i R. apply (R4 Fr whole whole t i (or_introl eq_refl) (or_introl eq_refl)). unfold whole. cbn. now rewrite app_nil_r.
  - exists s'. auto.
Qed.

(** * Bit by bit *)
Hypothesis Tr : typed nodyn rhs.
Hypothesis Ew : ew lhs = ew rhs.
Hypothesis Ok : sized vz rhs /\ folds_ok vz rhs /\ unsigned_ext rhs.
Let l := build vz h lhs [].
Let r := build vz h rhs [].

Lemma lhs_bits k : k < ew lhs -> exists t i, nth_error (lbits lhs) k = Some (t, i) /\ nth k (bits lhs) [] = [ABit (Some t) i].
Proof.
  intros K. destruct (lv_bits vz lhs Lv Tl) as (E & _). destruct (nth_error (lbits lhs) k) as [[t i]|] eqn:Q.
  - exists t, i. split; [reflexivity|]. rewrite E. apply nth_error_nth. rewrite nth_error_map, Q. reflexivity.
  - apply nth_error_None in Q. rewrite (lv_length vz lhs Lv Tl) in Q. lia.
Qed.

Lemma rhs_src_ok (g : segment V) : slo g < shi g -> forall xs, (forall x, In x xs -> wf_src V g x) ->
  exists rs, rhs_sources g xs = Some rs /\
    forall t i, rbit (flat_map seg_reads rs) t i <->
      exists x, In x xs /\ ((exists k, i = Z.of_nat k /\ src_bits V vz g x t k) \/ exists e, x = SOpq e /\ rbit (refs e) t i).
Proof.
  intros L. induction xs as [|x xs IH]; intros Wf.
  - exists []. split; [reflexivity|]. intros t i. split; [intros (b & [] & _)|intros (x & [] & _)].
  - destruct IH as (rs & E & H); [intros y I; apply Wf; now right|].
    assert (One : exists a, rhs_source g x = Some a /\ forall t i, rbit (seg_reads a) t i <->
        ((exists k, i = Z.of_nat k /\ src_bits V vz g x t k) \/ exists e, x = SOpq e /\ rbit (refs e) t i)).
    { specialize (Wf x (or_introl eq_refl)). destruct x as [p lo hi|sg|e|n lo hi|v lo hi e]; cbn [rhs_source].
      - destruct Wf as [W1 W2]. destruct (lsp_note_spec V vz p lo hi g W2 W1 L) as (n & En & Hn).
        rewrite En. eexists. split; [reflexivity|]. intros t i. cbn [seg_reads]. 
        assert (Qn : rbit [note_ref n] t i <-> exists k, i = Z.of_nat k /\ noted [n] t k).
        { assert (Ln : snd (fst n) <= snd n).
          { unfold lsp_note in En. destruct (proot p); [|discriminate]. destruct (slo g <? lo); [discriminate|]. inversion En; subst. cbn. lia. }
          destruct n as [[s a] b]. cbn [note_ref fst snd] in *. split.
          - intros (bb & [Q|[]] & B). inversion Q; subst. rewrite zbit in B by exact Ln. exists (Z.to_nat i). split; [lia|].
            exists a, b. split; [now left|lia].
          - intros (k & -> & x1 & x2 & [Q|[]] & K). inversion Q; subst. exists (zrange x1 x2). split; [now left|]. rewrite zbit; lia. }
        rewrite Qn. split.
        + intros (k & Ek & N). left. exists k. split; [exact Ek|]. now apply Hn.
        + intros [(k & Ek & N)|(e & Q & _)]; [|discriminate]. exists k. split; [exact Ek|]. now apply Hn.
      - eexists. split; [reflexivity|]. intros t i. split; [intros (b & [] & _)|].
        intros [(k & _ & q & _ & Q)|(e & Q & _)]; [|discriminate]. cbn in Q. intuition discriminate.
      - eexists. split; [reflexivity|]. intros t i. cbn [seg_reads]. split; [intros R; right; exists e; auto|].
        intros [(k & _ & q & _ & Q)|(e' & Q & R)]; [cbn in Q; intuition discriminate|]. inversion Q; subst. exact R.
      - destruct Wf.
      - eexists. split; [reflexivity|]. intros t i. split; [intros (b & [] & _)|].
        intros [(k & _ & q & _ & Q)|(e' & Q & _)]; [|discriminate]. cbn in Q. intuition discriminate. }
    destruct One as (a & Ea & Ha). cbn [rhs_sources]. rewrite Ea, E. exists (a :: rs). split; [reflexivity|].
    intros t i. cbn [flat_map]. split.
    + intros (b & I & B). apply in_app_or in I. destruct I as [I|I].
      * exists x. split; [now left|]. apply Ha. exists b. auto.
      * destruct (proj1 (H t i)) as (y & Iy & Q); [exists b; auto|]. exists y. split; [now right|exact Q].
    + intros (y & [<-|Iy] & Q).
      * apply Ha in Q. destruct Q as (b & I & B). exists b. split; [apply in_or_app; now left|exact B].
      * destruct (proj2 (H t i)) as (b & I & B); [exists y; auto|]. exists b. split; [apply in_or_app; now right|exact B].
Qed.

Lemma rhs_const (g : segment V) : forall xs rs, rhs_sources g xs = Some rs -> In RConst rs -> exists v lo hi e, In (SConst v lo hi e) xs.
Proof.
  induction xs as [|x xs IH]; intros rs E I; cbn [rhs_sources] in E; [injection E as <-; destruct I|].
  destruct (rhs_source g x) as [a|] eqn:Ex; [|discriminate]. destruct (rhs_sources g xs) as [rs'|]; [|discriminate]. injection E as <-.
  destruct I as [->|I].
  - destruct x as [p lo hi|sg|e|n lo hi|v lo hi e]; cbn in Ex; try discriminate Ex.
    + destruct (lsp_note p lo g); discriminate Ex.
    + exists v, lo, hi, e. now left.
  - destruct (IH rs' eq_refl I) as (v & lo & hi & e & J). exists v, lo, hi, e. now right.
Qed.

Lemma rhs_const_in (g : segment V) : forall xs rs v lo hi e, rhs_sources g xs = Some rs -> In (SConst v lo hi e) xs -> In RConst rs.
Proof.
  induction xs as [|x xs IH]; intros rs v lo hi e E I; [destruct I|]. cbn [rhs_sources] in E.
  destruct (rhs_source g x) as [a|] eqn:Ex; [|discriminate]. destruct (rhs_sources g xs) as [rs'|]; [|discriminate]. injection E as <-.
  destruct I as [->|I]; [cbn in Ex; injection Ex as <-; now left|right; eauto].
Qed.

(** One segment: one range of one symbol is written. *)
Definition seg_spec (g : segment V) (x : seg) : Prop :=
  (exists p t a, In p (lpaths lhs) /\ proot p = Some t /\ slhs x = [(t, zrange a (a + (shi g - slo g) - 1))] /\ plo p <= a /\
     a + (shi g - slo g) - 1 <= phi p /\ (forall ls c, h t = Some ls -> In c ls -> ~ a < c <= a + (shi g - slo g) - 1) /\
     forall k, slo g <= k < shi g -> nth_error (lbits lhs) k = Some (t, a + (k - slo g))) /\
  (forall k a t j, slo g <= k < shi g -> In a (nth k (bits rhs) []) -> In (t, j) (atom_reads a) -> rbit (flat_map seg_reads (srhs x)) t (Z.of_nat j)) /\
  (forall t i, rbit (flat_map seg_reads (srhs x)) t i -> exists j k a, i = Z.of_nat j /\ slo g <= k < shi g /\ In a (nth k (bits rhs) []) /\ In (t, j) (atom_reads a)) /\
  (In RConst (srhs x) -> exists v, In (AConst v) (nth (slo g) (bits rhs) [])) /\
  (forall k v, slo g <= k < shi g -> In (AConst v) (nth k (bits rhs) []) -> In RConst (srhs x)).
Lemma seg_spec_reads g x t i : seg_spec g x -> rbit (flat_map seg_reads (srhs x)) t i -> exists j, i = Z.of_nat j /\ In (t, j) (reads rhs).
Proof.
  intros (_ & _ & H & _) Q. destruct (H t i Q) as (j & k & a & E & _ & Ia & I). exists j. split; [exact E|].
  destruct (atom_sub vz rhs Po k a Ia) as [_ S]. now apply S.
Qed.

Lemma segs_tiled : tiled 0 l (ew lhs) /\ tiled 0 r (ew lhs) /\ good V False l /\ good V False r /\
  (forall k, k < ew lhs -> flat_map (atoms_of vz k) (srcs_at l k) = nth k (bits lhs) []) /\
  (forall k, k < ew lhs -> flat_map (atoms_of vz k) (srcs_at r k) = nth k (bits rhs) []).
Proof.
  destruct (build_list_spec V vz h lhs Sh Tl) as (Til & Pl & Gl). destruct (build_list_spec V vz h rhs Sh Tr) as (Tir & Pr & Gr).
  fold l in Til, Pl, Gl. fold r in Tir, Pr, Gr. rewrite <- Ew in Tir. split; [exact Til|]. split; [exact Tir|]. split; [exact Gl|]. split; [exact Gr|]. split.
  - intros k K. rewrite <- attr_find, (attr_provs V vz l 0 (ew lhs)) by (auto; lia). now rewrite Nat.sub_0_r, Pl.
  - intros k K. rewrite <- attr_find, (attr_provs V vz r 0 (ew lhs)) by (auto; lia). now rewrite Nat.sub_0_r, Pr.
Qed.

Lemma segment_ok g : In g (alignSegments l r) -> exists x, segment_seg g = Some x /\ seg_spec g x.
Proof.
  intros Ig. destruct segs_tiled as (Til & Tir & Gl & Gr & Al & Ar).
  destruct (align_facts V l r (ew lhs) g Til Tir Ig) as (L1 & L2 & Bd & _ & _ & Sg).
  destruct (Sg (slo g)) as [S1 S2]; [lia|].
  assert (Wr : forall x, In x (rsrcs g) -> wf_src V g x).
  { rewrite <- S2. apply (good_wf_src V r (ew lhs) g); auto. }
  destruct (rhs_src_ok g L1 (rsrcs g) Wr) as (rs & Er & Hr).
  destruct (find_some_tiled V l 0 (ew lhs) (slo g) Til) as (s & Fs & Is & Ks); [lia|].
  assert (Cs : shi g <= chi s). { destruct (Bd (chi s)) as [B|B]; [left; exists s; auto|lia|exact B]. }
  destruct (lv_slices vz h Sh lhs Lv Tl [] 0 eq_refl) as (new & En & _ & Ql). cbn in En.
  destruct (Ql s) as (p & lo & hi & t & Q1 & Q2 & Q3 & Q4 & Q5 & Q6); [rewrite <- En; exact Is|].
  assert (El : lsrcs g = [SLsp p lo hi]). { rewrite <- S1. unfold srcs_at. rewrite Fs. exact Q1. }
  unfold segment_seg. rewrite El, Er. cbn [lhs_notes]. unfold lsp_note. rewrite Q3.
  replace (slo g <? lo) with false by lia.
  eexists. split; [reflexivity|]. split; [|split; [|split; [|split]]].
  - exists p, t, (plo p + (slo g - lo)). cbn [slhs map note_ref]. split; [exact Q2|]. split; [exact Q3|]. split; [reflexivity|].
    split; [lia|]. split; [lia|]. split; [intros ls c Hc Ic L; apply (Q6 ls c Hc Ic); lia|].
    intros k K. destruct (lhs_bits k) as (t' & i & E1 & E2); [lia|]. rewrite E1. rewrite <- Al in E2 by lia.
    destruct (Sg k K) as [Ek _]. rewrite Ek, El in E2. cbn in E2. inversion E2 as [[E3 E4]]. rewrite Q3 in E3. inversion E3; subst. do 2 f_equal. lia.
  - cbn [srhs]. intros k a t' j K Ia Ij. apply Hr. rewrite <- Ar in Ia by lia. apply in_flat_atoms in Ia. destruct Ia as (x & Ix & Ia).
    destruct (Sg k K) as [_ Ek]. rewrite Ek in Ix. exists x. split; [exact Ix|].
    destruct a as [[s'|] i'| |e|v]; cbn in Ij; try contradiction.
    + destruct Ij as [Ij|[]]. inversion Ij; subst. left. exists j. split; [reflexivity|]. exists k. auto.
    + right. destruct x; cbn in Ia; try contradiction; destruct Ia as [Ia|[]]; inversion Ia; subst. exists e. split; [reflexivity|].
      apply refs_reads; [|exact Ij]. apply (atom_sub vz rhs Po k (AOpq e)); [|reflexivity]. rewrite <- Ar by lia. apply in_flat_atoms.
      exists (SOpq e). rewrite Ek. split; [exact Ix|now left].
  - cbn [srhs]. intros t' i Q. apply Hr in Q. destruct Q as (x & Ix & [(k & -> & q & K & Q)|(e & -> & Q)]).
    + exists k, q, (ABit (Some t') k). split; [reflexivity|]. split; [exact K|]. split; [|now left].
      rewrite <- Ar by lia. apply in_flat_atoms. exists x. destruct (Sg q K) as [_ ->]. auto.
    + assert (Ia : In (AOpq e) (nth (slo g) (bits rhs) [])).
      { rewrite <- Ar by lia. apply in_flat_atoms. exists (SOpq e). rewrite S2. split; [exact Ix|now left]. }
      destruct (atom_sub vz rhs Po _ _ Ia) as [P1 P2]. specialize (P1 e eq_refl).
      destruct (refs_nat e t' i P1 Q) as (k & ->). exists k, (slo g), (AOpq e). split; [reflexivity|]. split; [lia|]. split; [exact Ia|].
      cbn [atom_reads]. now apply refs_reads.
  - cbn [srhs]. intros Ic. destruct (rhs_const g _ _ Er Ic) as (v & a & b & e & Ix). exists (nth (slo g - a) v vz).
    rewrite <- Ar by lia. apply in_flat_atoms. exists (SConst v a b e). rewrite S2. split; [exact Ix|now left].
  - cbn [srhs]. intros k v K Ia. rewrite <- Ar in Ia by lia. apply in_flat_atoms in Ia. destruct Ia as (x & Ix & Ia).
    destruct (Sg k K) as [_ Ek]. rewrite Ek in Ix. destruct x as [p0 a b|sg|e|n a b|v' a b e]; cbn in Ia; try contradiction; destruct Ia as [Ia|[]]; try discriminate Ia.
    eapply rhs_const_in; eauto.
Qed.
(** The positions of a segment have the same origins, shifted. *)
Lemma seg_tight g : In g (alignSegments l r) -> forall k k', slo g <= k < shi g -> slo g <= k' < shi g ->
  (forall s i, In (ABit (Some s) i) (nth k (bits rhs) []) -> k <= i + k' /\ In (ABit (Some s) (i + k' - k)) (nth k' (bits rhs) [])) /\
  (forall e, In (AOpq e) (nth k (bits rhs) []) -> In (AOpq e) (nth k' (bits rhs) [])).
Proof.
  intros Ig k k' K K'. destruct segs_tiled as (Til & Tir & Gl & Gr & Al & Ar).
  destruct (align_facts V l r (ew lhs) g Til Tir Ig) as (L1 & L2 & Bd & _ & _ & Sg).
  assert (Wr : forall x, In x (rsrcs g) -> wf_src V g x).
  { destruct (Sg (slo g)) as [_ S2]; [lia|]. rewrite <- S2. apply (good_wf_src V r (ew lhs) g); auto. }
  rewrite <- !Ar by lia. destruct (Sg k K) as [_ ->]. destruct (Sg k' K') as [_ ->]. split.
  - intros s i I. apply in_flat_atoms in I. destruct I as (x & Ix & I). pose proof (Wr x Ix) as Wx.
    destruct x as [p lo hi|sg|e|n lo hi|v lo hi e]; cbn in I; try (destruct I as [I|[]]; try discriminate I); [|destruct I].
    injection I as E1 E2. cbn in Wx. split; [lia|]. apply in_flat_atoms. exists (SLsp p lo hi). split; [exact Ix|]. left. f_equal; [exact E1|lia].
  - intros e I. apply in_flat_atoms in I. destruct I as (x & Ix & I). apply in_flat_atoms. exists x. split; [exact Ix|].
    destruct x; cbn in I |- *; exact I || (destruct I as [I|[]]; discriminate I).
Qed.

Lemma segments_ok : forall ss, incl ss (alignSegments l r) -> exists xs, segment_segs ss = Some xs /\ Forall2 (fun g x => segment_seg g = Some x /\ seg_spec g x) ss xs.
Proof.
  induction ss as [|g ss IH]; intros I; [exists []; split; [reflexivity|constructor]|].
  destruct IH as (xs & E & F); [intros y J; apply I; now right|]. destruct (segment_ok g) as (x & Ex & Sx); [apply I; now left|].
  cbn [segment_segs]. rewrite Ex, E. exists (x :: xs). split; [reflexivity|]. constructor; auto.
Qed.
Lemma F2_in_l {A B} (R : A -> B -> Prop) : forall la lb a, Forall2 R la lb -> In a la -> exists b, In b lb /\ R a b.
Proof. intros la lb a F. induction F; intros []; subst; [eexists; split; [now left|assumption]|]. destruct IHF as (b & I & Q); [assumption|]. exists b. split; [now right|exact Q]. Qed.
Lemma F2_in_r {A B} (R : A -> B -> Prop) : forall la lb b, Forall2 R la lb -> In b lb -> exists a, In a la /\ R a b.
Proof. intros la lb b F. induction F; intros []; subst; [eexists; split; [now left|assumption]|]. destruct IHF as (a & I & Q); [assumption|]. exists a. split; [now right|exact Q]. Qed.

Lemma seg_lhs g x t i : In g (alignSegments l r) -> seg_spec g x -> rbit (slhs x) t i ->
  exists k j, slo g <= k < shi g /\ i = Z.of_nat j /\ nth_error (lbits lhs) k = Some (t, j).
Proof.
  intros Ig ((p & t' & a & _ & _ & E & _ & _ & _ & H) & _) (b & I & B). rewrite E in I. destruct I as [I|[]]. inversion I; subst.
  destruct segs_tiled as (Til & Tir & _). destruct (align_facts V l r (ew lhs) g Til Tir Ig) as (L1 & _).
  rewrite zbit in B by lia. exists (slo g + (Z.to_nat i - a)), (Z.to_nat i). split; [lia|]. split; [lia|]. rewrite H by lia. do 2 f_equal. lia.
Qed.

Lemma aligned_hyp : exists gs W, segment_segs (alignSegments l r) = Some gs /\
  Forall2 (fun g x => segment_seg g = Some x /\ seg_spec g x) (alignSegments l r) gs /\ W_ok W /\ G_ok gs /\ run_hyp W gs.
Proof.
  destruct (segments_ok (alignSegments l r) (incl_refl _)) as (gs & E & F). exists gs, (flat_map (fun g => map (fun x => (0, fst x, snd x)) (slhs g)) gs).
  destruct segs_tiled as (Til & Tir & Gl & Gr & Al & Ar).
  assert (Srt : StronglySorted (fun g g' : segment V => shi g <= slo g') (alignSegments l r)).
  { unfold alignSegments. eapply sorted_map; [|apply pairs_sorted, sorted_merge]. intros x y H. exact H. }
  set (W := flat_map _ gs).
  assert (InW : forall t lo hi, inW W t lo hi -> exists g x p a, In g (alignSegments l r) /\ segment_seg g = Some x /\ seg_spec g x /\ In p (lpaths lhs) /\ proot p = Some t /\
      slhs x = [(t, zrange a (a + (shi g - slo g) - 1))] /\ slo g < shi g /\ plo p <= a /\ a + (shi g - slo g) - 1 <= phi p /\
      (forall ls c, h t = Some ls -> In c ls -> ~ a < c <= a + (shi g - slo g) - 1) /\ lo = Z.of_nat a /\ hi = Z.of_nat (a + (shi g - slo g) - 1)).
  { intros t lo hi (lb & b & I & E1 & E2). unfold W in I. apply in_flat_map in I. destruct I as (x & Ix & I). apply in_map_iff in I.
    destruct I as ([t' b'] & Q & I). cbn in Q. inversion Q; subst. destruct (F2_in_r _ _ _ x F Ix) as (g & Ig & Eg & Sg).
    pose proof Sg as Sg0. destruct Sg as ((p & t' & a & P1 & P2 & P3 & P4 & P5 & P6 & _) & _). rewrite P3 in I. destruct I as [I|[]]. inversion I; subst.
    destruct (align_facts V l r (ew lhs) g Til Tir Ig) as (L1 & _). destruct (zlu a (a + (shi g - slo g) - 1)) as [Z1 Z2]; [lia|].
    exists g, x, p, a. do 11 (split; [assumption|]). assumption. }
  split; [exact E|]. split; [exact F|]. split; [|split].
  - intros t lo hi I. destruct (InW t lo hi I) as (g & x & p & a & _ & _ & _ & P1 & P2 & _ & L & P4 & P5 & P6 & -> & ->).
    exists p, a, (a + (shi g - slo g) - 1). repeat split; auto. lia.
  - intros k t i K. assert (Lk : k < ew lhs). { rewrite <- (lv_length vz lhs Lv Tl). apply nth_error_Some. congruence. }
    destruct (align_cover V l r (ew lhs) k Til Tir Lk) as (g & Ig & Kg). destruct (F2_in_l _ _ _ g F Ig) as (x & Ix & Ex & Sx).
    destruct (align_facts V l r (ew lhs) g Til Tir Ig) as (L1 & _).
    exists x, (flat_map atom_reads (nth k (bits rhs) [])). split; [exact Ix|]. destruct Sx as ((p & t' & a & _ & _ & P3 & _ & _ & _ & P7) & P8 & _).
    split; [|split; [|split]].
    + rewrite P7 in K by exact Kg. inversion K; subst. rewrite P3. eexists. split; [now left|]. rewrite zbit; lia.
    + intros y Iy. apply in_flat_map in Iy. destruct Iy as (at0 & I1 & I2). destruct (atom_sub vz rhs Po k at0 I1) as [_ Q]. now apply Q.
    + intros t0 j Ij. apply in_flat_map in Ij. destruct Ij as (at0 & I1 & I2). eapply P8; eauto.
    + intros v1 v2 Ag. destruct Ok as (O1 & O2 & O3). destruct (bits_sound V vz v1 v2 rhs Tr O1 O2 O3) as (_ & _ & B). apply B; [|exact Ag].
      rewrite (bits_length V vz rhs Tr). lia.
  - split; [|split; [|split]].
    + intros lb t b lb' b' I I'.
      destruct (InW t (lower b) (upper b)) as (g & x & p & a & Ig & Eg & Sg & _ & _ & P3 & L & _ & _ & _ & E1 & E2); [exists lb, b; auto|].
      destruct (InW t (lower b') (upper b')) as (g' & x' & p' & a' & Ig' & Eg' & Sg' & _ & _ & P3' & L' & _ & _ & _ & E1' & E2'); [exists lb', b'; auto|].
      rewrite E1, E2, E1', E2'.
      destruct (le_lt_dec a' (a + (shi g - slo g) - 1)) as [D|D]; [|right; lia].
      destruct (le_lt_dec a (a' + (shi g' - slo g') - 1)) as [D'|D']; [|right; lia]. left.
      assert (Q : exists k j, slo g <= k < shi g /\ Z.of_nat (max a a') = Z.of_nat j /\ nth_error (lbits lhs) k = Some (t, j)).
      { apply (seg_lhs g x); auto. rewrite P3. eexists. split; [now left|]. rewrite zbit; lia. }
      assert (Q' : exists k j, slo g' <= k < shi g' /\ Z.of_nat (max a a') = Z.of_nat j /\ nth_error (lbits lhs) k = Some (t, j)).
      { apply (seg_lhs g' x'); auto. rewrite P3'. eexists. split; [now left|]. rewrite zbit; lia. }
      destruct Q as (k & j & K & Ej & Nk). destruct Q' as (k' & j' & K' & Ej' & Nk').
      assert (j = j') by lia. subst j'. pose proof (nth_error_same _ _ _ _ Nd Nk Nk'). subst k'.
      destruct (sorted_two _ _ g g' Srt Ig Ig') as [->|[X|X]]; [|lia|lia].
      rewrite Eg in Eg'. inversion Eg'; subst x'. rewrite P3 in P3'. injection P3' as E3 E4. lia.
    + intros x t b Ix I. exists 0, b. split; [|auto]. unfold W. apply in_flat_map. exists x. split; [exact Ix|]. apply in_map_iff. exists (t, b). auto.
    + intros p x q x' rr Eq t i [R R']. subst gs.
      apply Forall2_app_inv_r in F. destruct F as (s1 & s2 & _ & F & Es). inversion F as [|g ? s3 ? [_ Sg] F3]; subst.
      apply Forall2_app_inv_r in F3. destruct F3 as (s4 & s5 & _ & F4 & ->). inversion F4 as [|g' ? s6 ? [_ Sg'] F5]; subst.
      destruct (seg_lhs g x t i) as (k & j & K & Ej & Nk); auto; [rewrite Es; apply in_or_app; right; now left|].
      destruct (seg_lhs g' x' t i) as (k' & j' & K' & Ej' & Nk'); auto; [rewrite Es; apply in_or_app; right; right; apply in_or_app; right; now left|].
      assert (j = j') by lia. subst j'. pose proof (nth_error_same _ _ _ _ Nd Nk Nk'). subst k'.
      rewrite Es in Srt. apply sorted_split in Srt. lia.
    + intros Fr x x' t i Ix Ix' R R'. destruct (F2_in_r _ _ _ x F Ix) as (g & Ig & _ & Sg). destruct (F2_in_r _ _ _ x' F Ix') as (g' & Ig' & _ & Sg').
      assert (Bt : forall (y : seg) gg, In gg (alignSegments l r) -> seg_spec gg y -> rbit (slhs y) t i -> exists j, i = Z.of_nat j /\ In (t, j) (lbits lhs)).
      { intros y gg Igg Sgg Ry. destruct (seg_lhs gg y t i Igg Sgg Ry) as (k & j & _ & Ej & Nk). exists j. split; [exact Ej|]. eapply nth_error_In; eauto. }
      destruct (Bt x' g' Ig' Sg' R') as (j' & Ej' & Ij'). destruct (seg_spec_reads g x t i Sg R) as (j & Ej & Ij).
      assert (j = j') by lia; subst j'; exact (Fr t j Ij Ij').
Qed.
Lemma aligned_ok nm n0 : no_self -> exists gs W, segment_segs (alignSegments l r) = Some gs /\ W_ok W /\ G_ok gs /\
  exists s', exec nm (fun _ => false) None (start n0) (SAligned 0 true gs) = DOk s' /\ sinv W s' gs /\ fle (fxs (start n0)) (fxs s').
Proof.
  intros Fr. destruct aligned_hyp as (gs & W & E & _ & Hw & Hg & R1 & R2 & R3 & R4). specialize (R4 Fr). exists gs, W. split; [exact E|]. split; [exact Hw|]. split; [exact Hg|].
  now apply (run_aligned nm W).
Qed.
End A.

Lemma asg_run {V} (vz : V) rb h ports asgs conns a nm n0 : wf_design vz rb h ports conns asgs -> In a asgs ->
  exists p s' W gs, asg_stmt vz rb h a = Some p /\ exec nm (fun _ => false) None (start n0) p = DOk s' /\ sinv W s' gs /\
    fle (fxs (start n0)) (fxs s') /\ W_ok h (fa_lhs a) W /\ G_ok vz (fa_lhs a) (fa_rhs a) gs.
Proof.
  intros Wf Ia. destruct (w_lhs _ _ _ _ _ _ Wf a Ia) as (Lv & Tl & Nd & _ & Un). destruct (w_rhs _ _ _ _ _ _ Wf a Ia) as ((Po & _ & Rs) & _ & Ew & Fr).
  pose proof (w_hints _ _ _ _ _ _ Wf) as Sh. unfold asg_stmt. destruct rb.
  - destruct (Rs eq_refl) as (O1 & O2 & Tr & O3). cbn [negb].
    destruct (build_list_spec V vz h (fa_lhs a) Sh Tl) as (Til & _). destruct (build_list_spec V vz h (fa_rhs a) Sh Tr) as (Tir & _).
    rewrite (tiled_width V _ _ Til), (tiled_width V _ _ Tir), Ew, Nat.eqb_refl. cbn [negb].
    destruct (aligned_ok vz h Sh (fa_lhs a) (fa_rhs a) Lv Tl Nd Po Tr Ew (conj O1 (conj O2 O3)) nm n0 Fr) as (gs & W & E & Hw & Hg & s' & X & Si & F).
    rewrite E. cbn [option_map]. exists (SAligned 0 true gs), s', W, gs. do 5 (split; [first [reflexivity|assumption]|]). assumption.
  - cbn [negb]. destruct (whole_ok vz h (fa_lhs a) (fa_rhs a) Lv Tl Nd Po Fr (Un eq_refl) nm n0) as (s' & X & Si & F & Hw & Hg).
    eexists. exists s'. eexists. eexists. split; [reflexivity|]. split; [exact X|]. do 3 (split; [eassumption|]). assumption.
Qed.
