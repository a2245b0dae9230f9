(** Proofs about whole designs: assignments join pieces of which one feeds the other. *)
From Coq Require Import Sorted.
From Verif Require Import Base M_Graph M_Range M_Netlist M_Annot M_Interval M_Heap M_Drivers M_Pending M_DFA M_Builder M_Slice M_Port M_Flow
  S_Reach S_Netlist S_Annot S_Interval S_Drivers S_Pending S_DFA S_Builder S_Slice S_Port S_Flow S_Prec
  P_Interval P_Heap P_Drivers P_DriversX P_Annot P_Pending P_DFA P_DFA2 P_Builder P_Slice P_Slice2 P_Port P_Port2 P_Port3 P_Flow2 P_Flow3 P_Flow4 P_Flow5 P_Flow6 P_Flow7
  P_Prec P_Prec2 P_Prec3.

Lemma finite_choice {A} (d : A) (P : nat -> A -> Prop) N : (forall n, n < N -> exists x, P n x) -> exists f, forall n, n < N -> P n (f n).
Proof.
  induction N as [|N IH]; intros H; [exists (fun _ => d); intros n L; lia|]. destruct IH as (f & F); [intros n L; apply H; lia|].
  destruct (H N) as (x & X); [lia|]. exists (fun n => if Nat.eqb n N then x else f n). intros n L. destruct (Nat.eqb_spec n N) as [->|Ne]; [exact X|]. apply F. lia.
Qed.

Section F.
Context {V : Type}.
Variable vz : V.
Variable rb : bool.
Variable h : hints.
Variable nm : nat -> str.
Variable ports : list fport.
Variable conns : list (fconn V).
Variable asgs : list (fasg V).
Hypothesis Wf : wf_design vz rb h ports conns asgs.
Hypothesis One : one_driver ports conns asgs.
Hypothesis Npn : no_port_names ports asgs.
Notation item := (item V).
Notation writes := (item_writes rb conns).
Notation rds := (item_reads vz rb conns).
Notation const_of := (item_constant vz rb conns).
Notation Feeds := (Feeds vz rb conns).
Notation valid := (valid_item vz rb ports asgs).
Variable b1 : bld.
Variable ops : list (nat * range * nat).
Hypothesis Pm : ports_made h ports b1 ops.
Notation sound := (sound vz rb nm ports conns asgs b1).
Notation all_done := (all_done vz rb ports b1).
Notation done := (done vz rb ports b1).

Lemma no_entry sy : (forall q, In q ports -> sy <> fp_id q) -> bvt b1 sy = None.
Proof.
  intros N. rewrite (pm_vt _ _ _ _ Pm), vt_run_sym. destruct (ops_of sy ops) as [|[r k] rest] eqn:Eo; [reflexivity|].
  assert (Io : In (sy, r, k) ops) by (apply ops_of_in; rewrite Eo; now left). apply (pm_ops _ _ _ _ Pm) in Io.
  destruct (pm_nodes _ _ _ _ Pm _ _ Io) as (q0 & lo0 & hi0 & a0 & c0 & x0 & Iq0 & Ek & _). injection Ek as Ek _.
  exfalso. apply (N q0 Iq0). congruence.
Qed.
Lemma no_interface sy b dl : (forall q, In q ports -> sy <> fp_id q) -> interfaceEdges variables nm no_modports (bvt b1) sy b dl = [].
Proof.
  intros N. unfold interfaceEdges, vt_lookup. cbn [variables]. rewrite (no_entry sy N). induction dl; [reflexivity|]. cbn. assumption.
Qed.

Notation mergeI := (mergeInterval variables nm (port_refs ports) no_width no_modports []).
Notation mergeIs := (mergeIntervals variables nm (port_refs ports) no_width no_modports []).
Notation mergeD := (mergeDrivers variables nm (port_refs ports) no_width no_modports []).

(** * Intervals of an analysed assignment *)
(** The drivers of [d] write the bits. *)
Definition block_fine (b : bld) (role : nat -> item) (W : trace) (sy : nat) (d : dmap) : Prop :=
  okd W sy d /\ (forall q, In q ports -> ivs d <> [] -> sy <> fp_id q) /\
  (forall x i, In x (ivs d) -> (ilo x <= i <= ihi x)%Z -> forall p j, i = Z.of_nat j -> In p ports -> fp_sy p = sy -> ~ in_range (fp_drivers p) true j) /\
  (forall i n, has d i n -> exists j, i = Z.of_nat j /\ n < bnext b /\ writes (role n) sy j).

Lemma interval_s b f role W D sy d x : sound (FL b f) role W D -> block_fine b role W sy d -> In x (ivs d) ->
  exists b', mergeI b sy d x = DOk b' /\ sound (FL b' f) role W D /\ bnext b' = bnext b.
Proof.
  intros So (Kd & Np & Ni & Hs) Ix. pose proof Kd as Kd0. destruct Kd as [Dk Un Iw Ne].
  destruct (get (lists d) (ival x)) as [l|] eqn:El; [|destruct (proj1 Un x Ix El)].
  assert (Lx : (ilo x <= ihi x)%Z) by (destruct Dk as [Dw _]; apply wf_spec in Dw; now apply Dw).
  assert (Nl : l <> []) by (intros ->; exact (Ne x Ix El)).
  assert (Wr : forall i n, (ilo x <= i <= ihi x)%Z -> In n l -> exists j, i = Z.of_nat j /\ n < bnext b /\ writes (role n) sy j).
  { intros i n L I. apply Hs. exists x, l. split; [exact Ix|]. split; [exact L|]. auto. }
  destruct l as [|n0 l0] eqn:El0; [congruence|]. rewrite <- El0 in *.
  assert (I0 : In n0 l) by (rewrite El0; now left).
  destruct (Wr (ilo x) n0) as (jl & Ejl & _); [lia|exact I0|]. destruct (Wr (ihi x) n0) as (jh & Ejh & _); [lia|exact I0|].
  assert (Lj : jl <= jh) by lia.
  assert (Rz : Range (ilo x) (ihi x) = zrange jl jh) by (unfold zrange; now rewrite Ejl, Ejh).
  unfold mergeInterval, getDriverList. rewrite El. cbn [dbind]. rewrite Rz. destruct (zlu jl jh Lj) as [Z1 Z2].
  destruct (add_s W sy (zrange jl jh) l b (s_al _ _ _ _ _ _ _ _ _ _ _ So) (s_dm _ _ _ _ _ _ _ _ _ _ _ So sy)) as (d' & E & Kd' & Hd); [rewrite Z1, Z2, <- Ejl, <- Ejh; now apply Iw|exact Nl|].
  rewrite E. cbn [dbind bemit bvt]. pose proof (s_vt _ _ _ _ _ _ _ _ _ _ _ So) as Vt0. cbn [fb] in Vt0. rewrite Vt0.
  rewrite no_interface; [|intros q Iq; apply (Np q Iq); intros Q; rewrite Q in Ix; destruct Ix].
  eexists. split; [reflexivity|]. split; [|reflexivity].
  assert (Hk := hook_s vz rb h nm ports conns asgs Wf b1 ops Pm (FL b f) role W D sy jl jh l So Lj).
  destruct So as [A1 A2 A3 A4 A5 A6 A7 A8 A9 A10 A11 A12]. cbn [fb fns] in *. split; cbn [fb fns bvt bnext bnodes bdeps bpend bdm bemit]; auto.
  - rewrite app_nil_r. intros e I. apply in_app_or in I. destruct I as [I|I]; [auto|]. apply Hk; [| |exact I].
    + intros p Ip Ep. eapply (Ni x (ilo x)); eauto. lia.
    + intros n In_. destruct (Wr (ilo x) n) as (_ & _ & Ln & _); [lia|exact In_|]. split; [exact Ln|]. intros j Lj'.
      destruct (Wr (Z.of_nat j) n) as (j' & Ej & _ & Q); [lia|exact In_|]. assert (j' = j) by lia. subst j'. exact Q.
  - intros sy' d0. unfold upd. destruct (Nat.eqb_spec sy' sy) as [->|_]; [intros [= <-]; exact Kd'|apply A11].
  - intros sy' i m (d0 & Q & Dr). unfold upd in Q. destruct (Nat.eqb_spec sy' sy) as [->|_]; [|apply A12; exists d0; auto].
    injection Q as <-. destruct (Hd i m Dr) as [[B I]|G]; [|now apply A12]. rewrite zbit in B by exact Lj. apply Wr; [lia|exact I].
Qed.
Lemma intervals_s f role W D sy d : forall its b, sound (FL b f) role W D -> block_fine b role W sy d -> incl its (ivs d) ->
  exists b', mergeIs b sy d its = DOk b' /\ sound (FL b' f) role W D /\ bnext b' = bnext b.
Proof.
  induction its as [|x its IH]; intros b So Bf Il; cbn [mergeIntervals]; [exists b; auto|].
  destruct (interval_s b f role W D sy d x So Bf (Il x (or_introl eq_refl))) as (b2 & E & So2 & N2). rewrite E. cbn [dbind].
  destruct (IH b2 So2) as (b3 & E3 & So3 & N3).
  - unfold block_fine in *. rewrite N2. exact Bf.
  - intros y I. apply Il. now right.
  - exists b3. split; [exact E3|]. split; [exact So3|lia].
Qed.
Lemma merge_s f role W D : forall blk b, sound (FL b f) role W D -> (forall sy d, In (sy, d) blk -> block_fine b role W sy d) ->
  exists b', mergeD b blk = DOk b' /\ sound (FL b' f) role W D /\ bnext b' = bnext b.
Proof.
  induction blk as [|[sy d] blk IH]; intros b So Bf; cbn [mergeDrivers]; [exists b; auto|].
  destruct (intervals_s f role W D sy d (ivs d) b So (Bf sy d (or_introl eq_refl)) (incl_refl _)) as (b2 & E & So2 & N2). rewrite E. cbn [dbind].
  destruct (IH b2 So2) as (b3 & E3 & So3 & N3).
  - intros sy' d' I. unfold block_fine in *. rewrite N2. apply Bf. now right.
  - exists b3. split; [exact E3|]. split; [exact So3|lia].
Qed.

(** * What an assignment runs *)
(** [x] does what the part [g] does. *)
Record seg_item (a : fasg V) (g : seg) (x : item) : Prop := {
  si_asg : exists lo hi, x = XAsg a lo hi;
  si_valid : valid x;
  si_w : forall t i, rbit (slhs g) t i -> exists j, i = Z.of_nat j /\ writes x t j;
  si_r : forall t i, rbit (flat_map seg_reads (srhs g)) t i -> exists j, i = Z.of_nat j /\ rds x t j /\ In (t, j) (reads (fa_rhs a));
  si_c : In RConst (srhs g) -> const_of x;
  si_w' : forall t j, writes x t j -> rbit (slhs g) t (Z.of_nat j);
  si_r' : forall t j, rds x t j -> rbit (flat_map seg_reads (srhs g)) t (Z.of_nat j);
  si_c' : const_of x -> In RConst (srhs g) }.

Lemma asg_items a n0 : In a asgs -> exists p W gs s' sg, asg_stmt vz rb h a = Some p /\ aligned_writes W /\ within W (lbits (fa_lhs a)) /\
  exec nm (fun _ => false) None (start n0) p = DOk s' /\ rsnd nm W n0 s' gs sg /\ W_ok h (fa_lhs a) W /\
  (forall k t i, nth_error (lbits (fa_lhs a)) k = Some (t, i) -> exists g, In g gs /\ rbit (slhs g) t (Z.of_nat i)) /\ forall g, In g gs -> exists x, seg_item a g x.
Proof.
  intros Ia. destruct (w_lhs _ _ _ _ _ _ Wf a Ia) as (Lv & Tl & Nd & _ & Un). destruct (w_rhs _ _ _ _ _ _ Wf a Ia) as ((Po & _ & Rs) & _ & Ew & Fr).
  assert (Wi : forall W, W_ok h (fa_lhs a) W -> within W (lbits (fa_lhs a))).
  { intros W Hw t lo hi i I L. destruct (Hw t lo hi I) as (q & x & y & Iq & Rq & -> & -> & L1 & L2 & L3 & _). exists (Z.to_nat i). split; [lia|].
    apply (path_bit vz (fa_lhs a) Lv Tl q); auto. lia. }
  pose proof (w_hints _ _ _ _ _ _ Wf) as Sh. unfold asg_stmt. destruct rb eqn:Rb.
  - destruct (Rs eq_refl) as (O1 & O2 & Tr & O3). cbn [negb].
    destruct (build_list_spec V vz h (fa_lhs a) Sh Tl) as (Til & _). destruct (build_list_spec V vz h (fa_rhs a) Sh Tr) as (Tir & _).
    rewrite (tiled_width V _ _ Til), (tiled_width V _ _ Tir), Ew, Nat.eqb_refl. cbn [negb].
    destruct (aligned_hyp vz h Sh (fa_lhs a) (fa_rhs a) Lv Tl Nd Po Tr Ew (conj O1 (conj O2 O3))) as (gs & W & E & F2 & Hw & Hg & Al & R2 & R3 & R4). specialize (R4 Fr).
    rewrite E. cbn [option_map]. destruct (run_aligned_s nm W Al gs R2 R3 R4 n0) as (s' & sg & X & Rn).
    exists (SAligned 0 true gs), W, gs, s', sg. split; [reflexivity|]. split; [exact Al|]. split; [now apply Wi|]. split; [exact X|]. split; [exact Rn|]. split; [exact Hw|].
    split; [intros k t i K; destruct (Hg k t i K) as (g & A & Ig & Rg & _); eauto|]. intros g Ig. destruct (F2_in_r _ _ _ g F2 Ig) as (m & Im & _ & Sp). rewrite <- Ew in Tir.
    destruct (align_facts V _ _ (ew (fa_lhs a)) m Til Tir Im) as (L1 & L2 & _).
    exists (XAsg a (slo m) (shi m)). split.
    + eauto.
    + cbn [valid_item]. rewrite Rb. split; [exact Ia|]. split; [exact L2|]. split; [exact L1|]. split.
      * destruct Sp as ((q & t & x & _ & _ & _ & _ & _ & _ & H) & _). exists t, x. exact H.
      * intros k k' Lk Lk'. exact (seg_tight vz h Sh (fa_lhs a) (fa_rhs a) Tl Tr Ew m Im k k' Lk Lk').
    + intros t i R. destruct (seg_lhs vz h Sh (fa_lhs a) (fa_rhs a) Tl Tr Ew m g t i Im Sp R) as (k & j & Lk & Ej & K). exists j. split; [exact Ej|]. exists k. auto.
    + intros t i R. destruct (seg_spec_reads vz h (fa_lhs a) (fa_rhs a) Po m g t i Sp R) as (j & Ej & Ij). exists j. split; [exact Ej|]. split; [|exact Ij].
      destruct Sp as (_ & _ & S3 & _). destruct (S3 t i R) as (j' & k & at_ & Ej' & Lk & Iat & Irt). assert (j' = j) by lia. subst j'.
      exists k. split; [intros _; exact Lk|]. unfold origin. rewrite Rb. exists at_. auto.
    + intros I. destruct Sp as (_ & _ & _ & S4 & _). destruct (S4 I) as (v & Iv). exists (slo m). split; [lia|]. split; [exact Rb|]. eauto.
    + intros t j (k & Lk & K). destruct Sp as ((q & t0 & x & _ & _ & El & _ & _ & _ & H) & _). rewrite (H k Lk) in K. injection K as <- <-.
      rewrite El. eexists. split; [now left|]. rewrite zbit; lia.
    + intros t j (k & Lk & Og). unfold origin in Og. rewrite Rb in Og. destruct Og as (at_ & Iat & Ir). destruct Sp as (_ & S2 & _). eapply S2; eauto.
    + intros (k & Lk & _ & v & Iv). destruct Sp as (_ & _ & _ & _ & S5). eapply S5; eauto.
  - cbn [negb]. destruct (whole_hyp vz h (fa_lhs a) (fa_rhs a) Lv Tl Nd Po (Un eq_refl)) as (Hw & Hg & (Al & R2 & R3 & R4) & Lb). specialize (R4 Fr).
    set (W := map (fun x : nat * range => (0, fst x, snd x)) (refs (fa_lhs a))) in *.
    destruct (run_aligned_s nm W Al [whole (fa_lhs a) (fa_rhs a)] R2 R3 R4 n0) as (s' & sg & X & Rn).
    exists (SLegacy 0 true (refs (fa_lhs a)) (refs (fa_rhs a))), W, [whole (fa_lhs a) (fa_rhs a)], s', sg.
    split; [reflexivity|]. split; [exact Al|]. split; [now apply Wi|]. split; [now apply whole_same|]. split; [exact Rn|]. split; [exact Hw|].
    split; [intros k t i K; destruct (Hg k t i K) as (g & A & Ig & Rg & _); eauto|]. intros g [<-|[]]. exists (XAsg a 0 (ew (fa_lhs a))). split.
    + eauto.
    + cbn [valid_item]. rewrite Rb. split; [exact Ia|]. split; [lia|]. auto.
    + intros t i R. destruct (Lb t i R) as (j & Ej & I). exists j. split; [exact Ej|]. apply In_nth_error in I. destruct I as (k & K). exists k. split; [|exact K].
      assert (k < length (lbits (fa_lhs a))) by (apply nth_error_Some; congruence). rewrite (lv_length vz _ Lv Tl) in H. lia.
    + intros t i R. cbn [whole srhs flat_map seg_reads] in R. rewrite app_nil_r in R. destruct (refs_nat _ t i Po R) as (j & ->). exists j. split; [reflexivity|].
      apply refs_reads in R; [|exact Po]. split; [|exact R]. exists 0. unfold at_asg, origin. rewrite Rb. split; [discriminate|exact R].
    + intros [Q|[]]. discriminate Q.
    + intros t j (k & _ & K). destruct (Hg k t j K) as (g & A & [<-|[]] & Rg & _). exact Rg.
    + intros t j (k & _ & Og). unfold origin in Og. rewrite Rb in Og. cbn [whole srhs flat_map seg_reads]. rewrite app_nil_r. now apply refs_reads.
    + intros (k & _ & Q & _). rewrite Rb in Q. discriminate.
Qed.

(** * Assignments *)
Lemma merge_nodes : forall blk b b', mergeDrivers variables nm (port_refs ports) no_width no_modports [] b blk = DOk b' -> bnodes b' = bnodes b.
Proof.
  assert (Ma : forall b sy r dl m b', baddDrivers b sy r dl m = DOk b' -> bnodes b' = bnodes b).
  { intros b sy r dl m b' E. unfold baddDrivers in E. destruct (addDrivers _ r dl m); [|discriminate]. cbn [dbind] in E. now injection E as <-. }
  assert (Mi : forall b sy d x b', mergeInterval variables nm (port_refs ports) no_width no_modports [] b sy d x = DOk b' -> bnodes b' = bnodes b).
  { intros b sy d x b' E. unfold mergeInterval in E. destruct (getDriverList d (ival x)) as [dl|]; [|discriminate]. cbn [dbind] in E.
    destruct (baddDrivers b sy (Range (ilo x) (ihi x)) dl true) as [b2|] eqn:Eb; [|discriminate]. cbn [dbind] in E. injection E as <-. cbn. eapply Ma; eauto. }
  assert (Ml : forall its b sy d b', mergeIntervals variables nm (port_refs ports) no_width no_modports [] b sy d its = DOk b' -> bnodes b' = bnodes b).
  { induction its as [|x its IH]; intros b sy d b' E; cbn [mergeIntervals] in E; [now injection E as <-|].
    destruct (mergeInterval variables nm (port_refs ports) no_width no_modports [] b sy d x) as [b2|] eqn:Eb; [|discriminate]. cbn [dbind] in E.
    rewrite (IH _ _ _ _ E). eapply Mi; eauto. }
  induction blk as [|[sy d] blk IH]; intros b b' E; cbn [mergeDrivers] in E; [now injection E as <-|].
  destruct (mergeIntervals variables nm (port_refs ports) no_width no_modports [] b sy d (ivs d)) as [b2|] eqn:Eb; [|discriminate]. cbn [dbind] in E.
  rewrite (IH _ _ E). eapply Ml; eauto.
Qed.
(** No bit is written by two nodes of assignments, which are among [l]. *)
Definition lone (b : bld) (role : nat -> item) (l : list (fasg V)) : Prop :=
  forall n x lo hi, n < bnext b -> role n = XAsg x lo hi -> In x l /\
    forall n' x' lo' hi' t j, n' < bnext b -> role n' = XAsg x' lo' hi' -> writes (role n) t j -> writes (role n') t j -> n = n'.
(** Every position of the assignments [l] has its node. *)
Definition covered (b : bld) (role : nat -> item) (l : list (fasg V)) : Prop :=
  forall a k, In a l -> k < ew (fa_lhs a) -> exists n lo hi, n < bnext b /\ role n = XAsg a lo hi /\ lo <= k < hi.
Lemma asg_s s role W D a : In a asgs -> sound s role W D -> all_done (fb s) role conns -> (forall x, In x D -> ~ In x (lbits (fa_lhs a))) ->
  exists s' role' W', run_asg vz rb h nm ports s a = DOk s' /\ sound s' role' W' (D ++ lbits (fa_lhs a)) /\ all_done (fb s') role' conns /\
    bnext (fb s) <= bnext (fb s') /\ (forall n, n < bnext (fb s) -> role' n = role n) /\ covered (fb s') role' [a] /\ bnodes (fb s') = bnodes (fb s) /\
    forall n x lo hi, bnext (fb s) <= n < bnext (fb s') -> role' n = XAsg x lo hi -> x = a /\
      forall n' t j, bnext (fb s) <= n' < bnext (fb s') -> writes (role' n) t j -> writes (role' n') t j -> n = n'.
Proof.
  intros Ia So Dn Ds. destruct (asg_items a (bnext (fb s)) Ia) as (p & T & gs & q & sg & Es & Al & Wi & Ex & Rn & Hw & Hg & It).
  destruct Rn as [Ok Re Le Nd All Sg Dp Pd Ha Rw Rr Rc Cv Ro]. set (n0 := bnext (fb s)) in *. set (f := fxs q) in *.
  assert (Ch : forall n, n < fnext f -> exists x, (n < n0 -> x = role n) /\ (n0 <= n -> match sg n with None => x = XConst | Some g => seg_item a g x end)).
  { intros n Ln. destruct (Nat.lt_ge_cases n n0) as [L|L]; [exists (role n); split; [auto|lia]|].
    destruct (sg n) as [g|] eqn:Eg; [|exists XConst; split; [lia|auto]]. destruct (It g (Sg n g (conj L Ln) Eg)) as (x & X). exists x. split; [lia|auto]. }
  apply (finite_choice XConst) in Ch. destruct Ch as (role' & Ch).
  assert (Old : forall n, n < n0 -> role' n = role n) by (intros n L; apply Ch; lia).
  assert (New : forall n, n0 <= n < fnext f -> match sg n with None => role' n = XConst | Some g => seg_item a g (role' n) end) by (intros n L; apply Ch; lia).
  pose proof (sound_more _ _ _ _ _ _ _ _ _ _ _ T (lbits (fa_lhs a)) So Al Wi Ds) as So1.
  unfold run_asg. rewrite Es. fold n0. rewrite Ex. cbn [dbind]. fold f.
  set (b0 := Bld (fnext f) (bnodes (fb s)) (bvt (fb s)) (bdm (fb s)) (bdeps (fb s) ++ fdeps f) (bpend (fb s) ++ fpend f)).
  assert (So2 : sound (FL b0 (fns s ++ fnodes f)) role' (W ++ T) (D ++ lbits (fa_lhs a))).
  { destruct So1 as [A1 A2 A3 A4 A5 A6 A7 A8 A9 A10 A11 A12]. fold n0 in A2, A3, A4, A5, A6, A7, A8, A12.
    split; cbn [fb fns b0 bvt bnext bnodes bdeps bpend bdm]; auto.
    - intros n r lo hi Ir N. destruct (A2 n r lo hi Ir N) as [L Q]. split; [lia|]. now rewrite Old.
    - intros n L. destruct (Nat.lt_ge_cases n n0) as [L0|L0]; [rewrite Old by exact L0; now apply A3|].
      specialize (New n (conj L0 L)). destruct (sg n) as [g|]; [exact (si_valid _ _ _ New)|rewrite New; exact I].
    - intros n k I. destruct (A4 n k I) as [L Q]. split; [lia|]. destruct k; auto; now rewrite Old.
    - intros n k I. apply in_app_or in I. destruct I as [I|I].
      + destruct (A5 n k I) as [L Q]. split; [lia|]. destruct k; auto; now rewrite Old.
      + destruct (Nd n k I) as [L ->]. split; [lia|]. specialize (New n L). destruct (sg n) as [g|]; [|exact New].
        destruct (si_asg _ _ _ New) as (lo & hi & E). eauto.
    - intros n L. destruct (Nat.lt_ge_cases n n0) as [L0|L0].
      + destruct (A6 n L0) as [H|(k & I)]; [now left|]. right. exists k. apply in_or_app. now left.
      + destruct (All n (conj L0 L)) as (k & I). right. exists k. apply in_or_app. now right.
    - intros d I. apply in_app_or in I. destruct I as [I|I].
      + destruct (A7 d I) as (L1 & L2 & Q). split; [lia|]. split; [lia|]. eapply dep_same; [| |exact Q]; now apply Old.
      + destruct (Dp d I) as (m & n & g & -> & L1 & L2 & E1 & E2 & C). cbn [dsrc dtgt dep_ok]. split; [lia|]. split; [lia|]. pose proof (New _ L1) as N1. pose proof (New _ L2) as N2.
        rewrite E1 in N1. rewrite E2 in N2. split; [exact N1|]. exact (si_c _ _ _ N2 C).
    - intros r I. apply in_app_or in I. destruct I as [I|I].
      + destruct (A8 r I) as (N & P1 & P2 & n & Pn & L & Q). do 3 (split; [assumption|]). exists n. split; [exact Pn|]. split; [lia|]. now rewrite Old.
      + destruct (Pd r I) as (n & g & Pn & P1 & P2 & L & E & Q). pose proof (New _ L) as N1. rewrite E in N1. split; [|split; [exact P1|split; [exact P2|]]].
        * intros q0 Iq0. assert (Bi : bit (pbounds r) (lower (pbounds r))) by (apply bit_lu; pose proof (lower_upper (pbounds r)); lia). set (i := lower (pbounds r)) in *. destruct (si_r _ _ _ N1 _ _ (Q i Bi)) as (j & _ & _ & Ij).
          destruct (w_rhs _ _ _ _ _ _ Wf a Ia) as ((_ & Np & _) & _). eapply Np; eauto.
        * exists n. split; [exact Pn|]. split; [lia|]. intros i Bi. destruct (si_r _ _ _ N1 _ _ (Q i Bi)) as (j & Ej & Rj & _). eauto.
    - intros sy i n G. destruct (A12 sy i n G) as (j & Ej & L & Q). exists j. split; [exact Ej|]. split; [lia|]. now rewrite Old. }
  set (blk := combine (seq 0 (length (adefs (cur q)))) (adefs (cur q))).
  assert (Blk : forall sy d, In (sy, d) blk -> d = defs (cur q) sy).
  { intros sy d I. unfold blk in I. unfold defs. apply In_nth with (d := (0, dm_empty)) in I. destruct I as (k & Lk & E).
    rewrite combine_length, seq_length, Nat.min_id in Lk. rewrite combine_nth in E by (now rewrite seq_length). injection E as E1 E2.
    rewrite seq_nth in E1 by exact Lk. cbn in E1. subst k. now symmetry. }
  assert (Bits : forall sy x i, In x (ivs (defs (cur q) sy)) -> (ilo x <= i <= ihi x)%Z -> exists j, i = Z.of_nat j /\ In (sy, j) (lbits (fa_lhs a))).
  { intros sy x i Ix L. exact (Wi sy (ilo x) (ihi x) i (ok_in _ _ _ (Ok sy) x Ix) L). }
  destruct (merge_s (fns s ++ fnodes f) role' (W ++ T) (D ++ lbits (fa_lhs a)) blk b0 So2) as (b2 & E2 & So3 & N2).
  { intros sy d I. rewrite (Blk sy d I). split; [|split; [|split]].
    - destruct (Ok sy) as [K1 K2 K3 K4]. split; auto. intros x Ix. apply (proj2 (inW_app _ _ _ _ _)). right. now apply K3.
    - intros q0 Iq0 Ne. destruct (ivs (defs (cur q) sy)) as [|x r] eqn:Ev; [congruence|].
      assert (Ix : In x (ivs (defs (cur q) sy))) by (rewrite Ev; now left).
      assert (Lx : (ilo x <= ihi x)%Z) by (destruct (ok_dok _ _ _ (Ok sy)) as [Dw _]; apply wf_spec in Dw; now apply Dw).
      destruct (Bits sy x (ilo x) Ix) as (j & _ & Ij); [lia|]. eapply Npn; eauto.
    - intros x i Ix L r j -> Ir Er. destruct (Bits sy x _ Ix L) as (j' & Ej & Ij). assert (j' = j) by lia. subst j'.
      apply (not_input nm ports conns asgs One sy j); auto. apply in_or_app. right. apply in_flat_map. eauto.
    - intros i n Hs. destruct (Ha sy i n Hs) as (g & L & Eg & _ & R). specialize (New n L). rewrite Eg in New.
      destruct (si_w _ _ _ New sy i R) as (j & Ej & Wj). exists j. split; [exact Ej|]. split; [cbn; lia|exact Wj]. }
  change (mergeDrivers variables nm (port_refs ports) no_width no_modports [] b0 blk) with (mergeD b0 blk). rewrite E2. cbn [dbind].
  exists (FL b2 (fns s ++ fnodes f)), role', (W ++ T). split; [reflexivity|]. split; [exact So3|]. cbn [fb].
  assert (Nb : bnext b2 = fnext f) by (rewrite N2; reflexivity).
  destruct (merge_ok nm ports no_width blk b0) as (b3 & E3 & _ & G3 & D3).
  { exact (sound_gok _ _ _ _ _ _ _ _ _ _ _ So2). }
  { intros sy d I. rewrite (Blk sy d I). split; [apply (ok_dok _ _ _ (Ok sy))|apply (ok_uns _ _ _ (Ok sy))]. }
  rewrite E2 in E3. injection E3 as <-.
  assert (G0 : grow (fb s) b0). { split; cbn; auto using incl_refl, incl_appl. }
  assert (Gr : grow (fb s) b2) by (eapply P_Flow6.grow_trans; eauto).
  assert (Bn : bnodes b2 = bnodes (fb s)) by (rewrite (merge_nodes _ _ _ E2); reflexivity).
  split; [|split; [fold n0; lia|split; [exact Old|split; [|split; [exact Bn|]]]]].
  - intros n Ln. destruct (Nat.lt_ge_cases n n0) as [L0|L0]; [eapply done_grow; eauto|]. rewrite Nb in Ln. pose proof (New n (conj L0 Ln)) as N1.
    destruct (sg n) as [g|] eqn:Eg; [|now apply const_done]. split.
    + intros r lo hi R. destruct (si_asg _ _ _ N1) as (x & y & R'). congruence.
    + intros t j Wj. pose proof (Rw n g t (Z.of_nat j) (conj L0 Ln) Eg (si_w' _ _ _ N1 t j Wj)) as Hs. destruct Hs as (x & l & Ix & Bi & El & In_).
      assert (It' : In (t, defs (cur q) t) blk).
      { unfold blk. unfold defs in *. destruct (Nat.lt_ge_cases t (length (adefs (cur q)))) as [L|L].
        - replace (t, nth t (adefs (cur q)) dm_empty) with (nth t (combine (seq 0 (length (adefs (cur q)))) (adefs (cur q))) (0, dm_empty)).
          + apply nth_In. rewrite combine_length, seq_length. lia.
          + rewrite combine_nth by (now rewrite seq_length). rewrite seq_nth by exact L. reflexivity.
        - rewrite nth_overflow in Ix by exact L. destruct Ix. }
      destruct (D3 t _ x l It' Ix El) as [D4 D5]. split; [apply D4; auto|].
      destruct (Hw t (ilo x) (ihi x) (ok_in _ _ _ (Ok t) x Ix)) as (pt & aa & cc & Ip & Rp & Ea & Ec & L1 & L2 & L3 & Cut).
      destruct (w_lhs _ _ _ _ _ _ Wf a Ia) as (_ & _ & _ & Idr & _). destruct Bi as [Bi1 Bi2].
      apply (hook_ok vz rb h nm ports conns asgs Wf b1 ops Pm b2 n t aa cc j l); auto; [lia| |].
      * intros q' Iq' Eq'. destruct (Idr pt q' Ip Iq') as (lo & hi & x0 & I0 & L0' & L0''); [congruence|]. exists lo, hi, x0. split; [exact I0|lia].
      * unfold b0 in D5. cbn [bvt] in D5. rewrite (s_vt _ _ _ _ _ _ _ _ _ _ _ So), Ea, Ec in D5. exact D5.
    + intros t j Rj. left. eapply pended_incl; [apply (P_Flow6.g_pend _ _ G3)|]. cbn [bpend b0]. eapply pended_incl; [|exact (Rr n g t _ (conj L0 Ln) Eg (si_r' _ _ _ N1 t j Rj))].
      intros z Z. apply in_or_app. now right.
    + intros C. destruct (Rc n g (conj L0 Ln) Eg (si_c' _ _ _ N1 C)) as (m & Lm & Em & Im). exists m. split; [lia|]. split.
      * specialize (New m Lm). now rewrite Em in New.
      * apply (P_Flow6.g_dep _ _ G3). cbn [bdeps b0]. apply in_or_app. now right.
  - intros a' k [<-|[]] Lk. destruct (w_lhs _ _ _ _ _ _ Wf a Ia) as (Lv & Tl & Ndl & _).
    destruct (nth_error (lbits (fa_lhs a)) k) as [[t i]|] eqn:K.
    2: { apply nth_error_None in K. rewrite (lv_length vz _ Lv Tl) in K. lia. }
    destruct (Hg k t i K) as (g & Ig & Rg). destruct (Cv g Ig) as (n & Ln & Eg). pose proof (New n Ln) as N1. rewrite Eg in N1.
    destruct (si_asg _ _ _ N1) as (lo & hi & R). exists n, lo, hi. split; [lia|]. split; [exact R|].
    destruct (si_w _ _ _ N1 t _ Rg) as (j & Ej & Wj). assert (j = i) by lia. subst j. rewrite R in Wj. destruct Wj as (k' & Lk' & K').
    assert (k' = k). { eapply (proj1 (NoDup_nth_error (lbits (fa_lhs a))) Ndl); [|congruence]. apply nth_error_Some. congruence. }
    now subst k'.
  - intros n x lo hi Ln R. rewrite Nb in Ln. pose proof (New n Ln) as N1. destruct (sg n) as [g|] eqn:Eg; [|congruence]. destruct (si_asg _ _ _ N1) as (lo1 & hi1 & R1).
    split; [congruence|]. intros n' t j Ln' W1 W2. rewrite Nb in Ln'. pose proof (New n' Ln') as M2. destruct (sg n') as [g'|] eqn:Eg'; [|rewrite M2 in W2; destruct W2].
    refine (Ro n n' g g' t (Z.of_nat j) Ln Ln' Eg Eg' (si_w' _ _ _ N1 t j W1) (si_w' _ _ _ M2 t j W2)).
Qed.
Lemma asgs_s : forall l s role W D dn, incl l asgs -> sound s role W D -> all_done (fb s) role conns -> covered (fb s) role dn -> lone (fb s) role dn ->
  NoDup (D ++ flat_map (fun a => lbits (fa_lhs a)) l) -> incl (flat_map (fun a => lbits (fa_lhs a)) dn) D ->
  exists s' role' W' D', run_asgs vz rb h nm ports s l = DOk s' /\ sound s' role' W' D' /\ all_done (fb s') role' conns /\ covered (fb s') role' (dn ++ l) /\
    incl D' (D ++ flat_map (fun a => lbits (fa_lhs a)) l) /\ lone (fb s') role' (dn ++ l) /\ bnodes (fb s') = bnodes (fb s).
Proof.
  induction l as [|a l IH]; intros s role W D dn Il So Dn Cv Lo Nd Ic; cbn [run_asgs]; [exists s, role, W, D; cbn [flat_map]; rewrite !app_nil_r; auto 10 using incl_refl|].
  cbn [flat_map] in Nd. rewrite app_assoc in Nd. destruct (nodup_split _ _ Nd) as (Nd1 & _). destruct (nodup_split _ _ Nd1) as (_ & _ & Nd3).
  destruct (asg_s s role W D a (Il a (or_introl eq_refl)) So Dn Nd3) as (s2 & role2 & W2 & E2 & So2 & Dn2 & Nx & Kp & Cv2 & Bn2 & Lo2). rewrite E2. cbn [dbind].
  destruct (IH s2 role2 W2 _ (dn ++ [a]) (fun x I => Il x (or_intror I)) So2 Dn2) as (s3 & role3 & W3 & D3 & E3 & So3 & Dn3 & Cv3 & Id3 & Lo3 & Bn3).
  - intros a' k I Lk. apply in_app_or in I. destruct I as [I|I]; [|eapply Cv2; eauto].
    destruct (Cv a' k I Lk) as (n & lo & hi & L & R & K). exists n, lo, hi. split; [lia|]. split; [now rewrite Kp|exact K].
  - assert (Wb : forall n x lo hi t j, role2 n = XAsg x lo hi -> writes (role2 n) t j -> In (t, j) (lbits (fa_lhs x))).
    { intros n x lo hi t j R Wj. rewrite R in Wj. destruct Wj as (k & _ & K). eapply nth_error_In; eauto. }
    intros n x lo hi Ln R. destruct (Nat.lt_ge_cases n (bnext (fb s))) as [L|L].
    + pose proof R as R0. rewrite Kp in R0 by exact L. destruct (Lo n x lo hi L R0) as [Ix Lx]. split; [apply in_or_app; now left|].
      intros n' x' lo' hi' t j Ln' R' W1 W1'. destruct (Nat.lt_ge_cases n' (bnext (fb s))) as [L'|L'].
      * rewrite Kp in R', W1, W1' by assumption. eapply Lx; eauto.
      * exfalso. destruct (Lo2 n' x' lo' hi' (conj L' Ln') R') as [-> _]. apply (Nd3 (t, j)); [|eapply Wb; eauto]. apply Ic, in_flat_map. exists x. split; [exact Ix|eapply Wb; eauto].
    + destruct (Lo2 n x lo hi (conj L Ln) R) as [-> Lx]. split; [apply in_or_app; right; now left|].
      intros n' x' lo' hi' t j Ln' R' W1 W1'. destruct (Nat.lt_ge_cases n' (bnext (fb s))) as [L'|L']; [|eapply Lx; eauto].
      exfalso. pose proof R' as R0. rewrite Kp in R0 by exact L'. destruct (Lo n' x' lo' hi' L' R0) as [Ix _]. apply (Nd3 (t, j)); [|eapply Wb; eauto]. apply Ic, in_flat_map. exists x'. split; [exact Ix|eapply Wb; eauto].
  - exact Nd.
  - intros x I. rewrite flat_map_app in I. apply in_app_or in I. destruct I as [I|I]; apply in_or_app; [left; auto|right]. cbn [flat_map] in I. now rewrite app_nil_r in I.
  - rewrite <- app_assoc in Cv3, Lo3. rewrite <- app_assoc in Id3. exists s3, role3, W3, D3. split; [exact E3|]. split; [exact So3|]. split; [exact Dn3|]. split; [exact Cv3|]. split; [exact Id3|]. split; [exact Lo3|congruence].
Qed.
End F.
