(** Proofs about combinational blocks: what the analysis does with the segments of an
    assignment, a condition and a join, from any state. *)
From Verif Require Import Base M_Graph M_Range M_Netlist M_Annot M_Interval M_Heap M_Drivers M_Pending M_DFA
  S_Interval S_Drivers S_Pending S_DFA P_Interval P_Heap P_Drivers P_DriversX P_DFA P_DFA2 P_Flow2.
Local Open Scope Z_scope.

Section Run.
Variable nm : nat -> str.
Notation note := (noteReference nm (fun _ => false) None).
Notation hrv := (handleRvalue nm None).
Notation drhs := (drive_rhs nm (fun _ => false) None).
Variable W : trace.
Hypothesis aligned : aligned_writes W.

Definition gle (f f' : fx) : Prop := fle f f' /\ flv f' = flv f.
Lemma gle_refl f : gle f f.
Proof. split; [apply fle_refl|reflexivity]. Qed.
Lemma gle_trans f g k : gle f g -> gle g k -> gle f k.
Proof. intros [A B] [A' B']. split; [eapply fle_trans; eauto|congruence]. Qed.
Lemma gle_next f f' : gle f f' -> (fnext f <= fnext f')%nat.
Proof. intros [[A _] _]. exact A. Qed.

(** There is an edge. *)
Definition joined (ds : list dep) (m n : nat) : Prop := exists e, In e ds /\ dsrc e = m /\ dtgt e = n.
Lemma joined_incl ds ds' m n : incl ds ds' -> joined ds m n -> joined ds' m n.
Proof. intros H (e & I & R). exists e. split; [now apply H|exact R]. Qed.

(** The ranges written fit a range read. *)
Definition fitsW (t : nat) (b : range) : Prop := forall lo hi, inW W t lo hi -> lo <= upper b -> lower b <= hi ->
  (lo <= lower b /\ upper b <= hi) \/ (lower b <= lo /\ hi <= upper b).
Lemma fitsW_fits a t b : okA W a -> fitsW t b -> fits (defs a t) b.
Proof. intros O F x I. apply F. apply (ok_in _ _ _ (O t) x I). Qed.

(** * Reads *)
(** Bit [i] of [t] has been read by node [n] in state [a]. *)
Definition rdone (a : astate) (f : fx) (n t : nat) (i : Z) : Prop :=
  ((forall m, ~ hasA a t i m) -> pended (fpend f) n t i) /\ forall m, hasA a t i m -> joined (fdeps f) m n.
Lemma rdone_gle a f f' n t i : gle f f' -> rdone a f n t i -> rdone a f' n t i.
Proof.
  intros [(_ & _ & D & P) _] [A B]. split; [intros N; eapply pended_incl; [exact P|auto]|]. intros m H. eapply joined_incl; [exact D|auto].
Qed.
Lemma rdone_same a a' f n t i : (forall m, hasA a t i m <-> hasA a' t i m) -> rdone a f n t i -> rdone a' f n t i.
Proof. intros E [A B]. split; [intros N; apply A; intros m H; now apply (N m), E|]. intros m H. now apply B, E. Qed.

Lemma read_one s n t b : anode (cur s) = Some n -> okA W (cur s) -> fitsW t b ->
  exists s', hrv s t b = DOk s' /\ cur s' = cur s /\ gle (fxs s) (fxs s') /\
    forall i, bit b i -> rdone (cur s) (fxs s') n t i.
Proof.
  intros An Ok Fi. destruct (okA_dok W _ t Ok) as [K Va].
  destruct (handleRvalue_node nm None s t b n An K Va) as (s' & ds & ps & E & [R1 R2] & H).
  exists s'. split; [exact E|]. split; [exact R1|]. rewrite R2. split.
  - split; [|reflexivity]. unfold fle. cbn. split; [lia|]. split; [apply incl_refl|]. split; intros x I; apply in_or_app; now left.
  - intros i B. split.
    + intros N. destruct (rds_pcomplete _ _ _ _ _ _ H t b i (or_introl eq_refl) B) as (p & Ip & Sy & Bp).
      { intros Cv. apply covers_has in Cv; [|apply (ok_uns _ _ _ (Ok t))|apply (ok_ne _ _ _ (Ok t))]. destruct Cv as (m & Q). exact (N m Q). }
      exists p. cbn [fpend]. split; [apply in_or_app; now right|]. split; [exact Sy|]. split; [|exact Bp]. now destruct (rds_psound _ _ _ _ _ _ H p Ip).
    + intros m Q. pose proof (rds_complete _ _ _ _ _ _ H t b i m (or_introl eq_refl) (fitsW_fits _ _ _ Ok Fi) B Q) as I.
      eexists. split; [cbn [fdeps]; apply in_or_app; right; exact I|]. split; reflexivity.
Qed.
Lemma read_refs_ok n : forall refs s, anode (cur s) = Some n -> areach (cur s) = true -> okA W (cur s) ->
  (forall t b, In (t, b) refs -> fitsW t b) ->
  exists s', each (note None) s refs = DOk s' /\ cur s' = cur s /\ gle (fxs s) (fxs s') /\
    forall t i, rbit refs t i -> rdone (cur s) (fxs s') n t i.
Proof.
  induction refs as [|[t b] refs IH]; intros s An Ar Ok Fi; cbn [each].
  - exists s. split; [reflexivity|]. split; [reflexivity|]. split; [apply gle_refl|]. intros t i (b & [] & _).
  - unfold noteReference at 1. rewrite Ar. cbn [negb fst snd].
    destruct (read_one s n t b An Ok) as (s1 & E1 & C1 & F1 & P1); [apply Fi; now left|]. rewrite E1. cbn [dbind].
    destruct (IH s1) as (s2 & E2 & C2 & F2 & P2); try (rewrite C1; assumption); [intros t' b' I; apply Fi; now right|].
    exists s2. split; [exact E2|]. split; [congruence|]. split; [eapply gle_trans; eauto|].
    intros t' i (b' & [[= <- <-]|I] & B).
    + eapply rdone_gle; [exact F2|]. apply P1; auto.
    + rewrite <- C1. apply P2. exists b'; auto.
Qed.
Lemma read_srcs n : forall rs s, anode (cur s) = Some n -> areach (cur s) = true -> okA W (cur s) ->
  (forall t b, In (t, b) (flat_map seg_reads rs) -> fitsW t b) ->
  exists s', each drhs s rs = DOk s' /\ cur s' = cur s /\ gle (fxs s) (fxs s') /\
    forall t i, rbit (flat_map seg_reads rs) t i -> rdone (cur s) (fxs s') n t i.
Proof.
  induction rs as [|r rs IH]; intros s An Ar Ok Fi; cbn [each].
  - exists s. split; [reflexivity|]. split; [reflexivity|]. split; [apply gle_refl|]. intros t i (b & [] & _).
  - assert (One : exists s', drhs s r = DOk s' /\ cur s' = cur s /\ gle (fxs s) (fxs s') /\
      forall t i, rbit (seg_reads r) t i -> rdone (cur s) (fxs s') n t i).
    { assert (Fr : forall t b, In (t, b) (seg_reads r) -> fitsW t b) by (intros t b I; apply Fi; cbn; apply in_or_app; now left).
      destruct r as [[t b]|l| |]; cbn [drive_rhs P_Flow2.seg_reads] in *.
      - destruct (read_one s n t b An Ok) as (s1 & E1 & C1 & F1 & P1); [apply Fr; now left|]. exists s1. split; [exact E1|]. split; [exact C1|]. split; [exact F1|].
        intros t' i (b' & [[= <- <-]|[]] & B). now apply P1.
      - now apply read_refs_ok.
      - exists s. split; [reflexivity|]. split; [reflexivity|]. split; [apply gle_refl|]. intros t i (b & [] & _).
      - rewrite An. cbn [create]. eexists. split; [reflexivity|]. split; [reflexivity|]. split.
        + split; [|reflexivity]. unfold fle. cbn. split; [lia|]. split; [|split; [|apply incl_refl]]; intros x I; apply in_or_app; now left.
        + intros t i (b & [] & _). }
    destruct One as (s1 & E1 & C1 & F1 & P1). rewrite E1. cbn [dbind].
    destruct (IH s1) as (s2 & E2 & C2 & F2 & P2); try (rewrite C1; assumption).
    { intros t b I. apply Fi. cbn [flat_map]. apply in_or_app. now right. }
    exists s2. split; [exact E2|]. split; [congruence|]. split; [eapply gle_trans; eauto|].
    intros t i (b & I & B). cbn [flat_map] in I. apply in_app_or in I. destruct I as [I|I].
    + eapply rdone_gle; [exact F2|]. apply P1. exists b; auto.
    + rewrite <- C1. apply P2. exists b; auto.
Qed.

(** * A new node *)
(** updateNode on a fresh node. *)
Definition ctl_edge (c : option nat) (f : fx) (n : nat) : Prop := forall c0, c = Some c0 -> joined (fdeps f) c0 n.
Lemma ctl_gle c f f' n : gle f f' -> ctl_edge c f n -> ctl_edge c f' n.
Proof. intros [(_ & _ & D & _) _] H c0 E. eapply joined_incl; [exact D|auto]. Qed.
Lemma new_node s k x : let '(s1, n) := create s k in let s2 := updateNode s1 n x in
  n = fnext (fxs s) /\ fnext (fxs s2) = S n /\ gle (fxs s) (fxs s2) /\ ctl_edge (acond (cur s)) (fxs s2) n /\
  cur s2 = AS (adefs (cur s)) (Some n) (if x then Some n else None) (areach (cur s)).
Proof.
  cbn [create]. unfold updateNode, with_fx, with_cur, emit. cbn [cur fxs]. destruct (acond (cur s)) as [c|] eqn:E; cbn.
  - split; [reflexivity|]. split; [reflexivity|]. split; [split; [|reflexivity]; unfold fle; cbn; split; [lia|]; split; [|split; [|apply incl_refl]]; intros y I; apply in_or_app; now left|].
    split; [|reflexivity]. intros c0 [= <-]. exists (DPlain c (fnext (fxs s))). split; [apply in_or_app; right; now left|]. split; reflexivity.
  - split; [reflexivity|]. split; [reflexivity|]. split; [split; [|reflexivity]; unfold fle; cbn; split; [lia|]; split; [|split; apply incl_refl]; intros y I; apply in_or_app; now left|].
    split; [discriminate|reflexivity].
Qed.

(** * Segments *)
Variable gs : list seg.
Hypothesis writes : forall g t b, In g gs -> In (t, b) (slhs g) -> inW W t (lower b) (upper b).
Hypothesis fitting : forall g t b, In g gs -> In (t, b) (flat_map seg_reads (srhs g)) -> fitsW t b.
Hypothesis apart : forall p g q g' r, gs = p ++ g :: q ++ g' :: r -> forall t i, ~ (rbit (slhs g) t i /\ rbit (slhs g') t i).
Hypothesis fresh : forall g g' t i, In g gs -> In g' gs -> rbit (flat_map seg_reads (srhs g)) t i -> ~ rbit (slhs g') t i.

Lemma rbit_dec l t i : rbit l t i \/ ~ rbit l t i.
Proof.
  destruct (existsb (fun x => Nat.eqb (fst x) t && bitb (snd x) i) l) eqn:X.
  - left. apply existsb_exists in X. destruct X as ([t2 b2] & I2 & Q2). cbn [fst snd] in Q2. apply andb_true_iff in Q2.
    destruct Q2 as [Q2 Q3]. apply Nat.eqb_eq in Q2. subst t2. apply bitb_spec in Q3. exists b2. auto.
  - right. intros (b & I & B). apply bitb_spec in B. rewrite <- not_true_iff_false in X. apply X. apply existsb_exists. exists (t, b).
    split; [exact I|]. cbn [fst snd]. now rewrite Nat.eqb_refl, B.
Qed.

(** The bits of an L-value are left with the one driver. *)
Lemma lvs_only n t i : forall refs s s', anode (cur s) = Some n -> okA W (cur s) ->
  (forall t b, In (t, b) refs -> inW W t (lower b) (upper b)) ->
  each (fun s x => handleLvalue true s (fst x) (snd x)) s refs = DOk s' ->
  (rbit refs t i \/ forall k, hasA (cur s) t i k -> k = n) -> forall k, hasA (cur s') t i k -> k = n.
Proof.
  induction refs as [|[t1 b1] refs IHr]; intros s s' An Ok Hw E H k Hk; cbn [each] in E.
  - injection E as <-. destruct H as [(b & [] & _)|H]. auto.
  - unfold handleLvalue in E at 1. rewrite An in E. cbn [fst snd] in E.
    destruct (track_ok W (cur s) t1 b1 [n] false aligned Ok) as (a & Ea & Oa & B1 & B2 & B3 & Ha); [apply Hw; now left|discriminate|].
    rewrite Ea in E. cbn [dbind] in E. apply (IHr (with_cur s a) s'); cbn [with_cur cur]; auto; try congruence.
    { intros; apply Hw; now right. }
    destruct (rbit_dec refs t i) as [R|R]; [now left|]. right. intros k' Q'. apply Ha in Q'. destruct Q' as [(_ & _ & [[->|[]]|[Q' _]])|[Q1 Q2]]; [reflexivity|discriminate|].
    destruct H as [(b & [[= <- <-]|I] & Bb)|H]; [destruct Q1; auto|destruct R; exists b; auto|auto].
Qed.

Section Segs.
(** The state before the assignment. *)
Variable s0 : st.
Definition written (L : list (seg * nat)) (t : nat) (i : Z) (m : nat) : Prop := exists g, In (g, m) L /\ rbit (slhs g) t i.
Record linv (s : st) (L : list (seg * nat)) : Prop := {
  li_ok : okA W (cur s);
  li_reach : areach (cur s) = true;
  li_gle : gle (fxs s0) (fxs s);
  li_has : forall t i m, hasA (cur s) t i m <-> written L t i m \/ (~ (exists m', written L t i m') /\ hasA (cur s0) t i m);
  li_node : forall g n, In (g, n) L -> (fnext (fxs s0) <= n < fnext (fxs s))%nat /\ ctl_edge (acond (cur s0)) (fxs s) n /\
    forall t i, rbit (flat_map seg_reads (srhs g)) t i -> rdone (cur s0) (fxs s) n t i }.

Lemma segs_run : forall rest s L, gs = map fst L ++ rest -> linv s L ->
  exists s' L', each (do_seg nm (fun _ => false) None 0 true (anode (cur s0)) (acond (cur s0))) s rest = DOk s' /\ linv s' L' /\ map fst L' = gs.
Proof.
  induction rest as [|g rest IH]; intros s L Eg [O Ar Gl Hh Hn]; cbn [each].
  - exists s, L. rewrite app_nil_r in Eg. split; [reflexivity|]. split; [|now symmetry]. now split.
  - unfold do_seg at 1.
    set (a0 := AS (adefs (cur s)) (anode (cur s0)) (acond (cur s0)) (areach (cur s))).
    pose proof (new_node (with_cur s a0) (KAssign 0) false) as Nn. cbv zeta in Nn.
    destruct (create (with_cur s a0) (KAssign 0)) as [s1 n] eqn:Ec. set (s2 := updateNode s1 n false) in *.
    destruct Nn as (En & Nx & G2 & Ct & Cu). cbn [with_cur cur fxs] in En, Nx, G2, Ct, Cu. unfold a0 in Ct, Cu. cbn [acond adefs areach] in Ct, Cu.
    assert (Ig : In g gs) by (rewrite Eg; apply in_or_app; right; now left).
    assert (O2 : okA W (cur s2)) by (rewrite Cu; exact O).
    assert (H2 : forall t i m, hasA (cur s2) t i m <-> hasA (cur s) t i m) by (intros; rewrite Cu; reflexivity).
    destruct (lvs W aligned (fun s x => handleLvalue true s (fst x) (snd x)) n (fun _ _ _ => eq_refl) (slhs g) s2)
      as (s3 & E3 & F3 & O3 & N3 & R3 & A1 & A2 & A3).
    { now rewrite Cu. } { rewrite Cu. exact Ar. } { exact O2. } { intros t b I. now apply (writes g). }
    rewrite E3. cbn [dbind].
    destruct (read_srcs n (srhs g) s3 N3 R3 O3) as (s4 & E4 & C4 & F4 & P4); [intros t b I; now apply (fitting g)|].
    rewrite E4. cbn [dbind].
    assert (Gs : gle (fxs s) (fxs s4)) by (eapply gle_trans; [exact G2|]; now rewrite <- F3).
    assert (Old : forall t i m, written L t i m -> ~ rbit (slhs g) t i).
    { intros t i m (g0 & I0 & B0) B. apply (in_map fst) in I0. cbn in I0. apply in_split in I0. destruct I0 as (p & q & Ep). rewrite Ep in Eg.
      rewrite <- app_assoc in Eg. cbn [app] in Eg. exact (apart p g0 q g rest Eg t i (conj B0 B)). }
    assert (Has4 : forall t i m, hasA (cur s4) t i m <-> written (L ++ [(g, n)]) t i m \/ (~ (exists m', written (L ++ [(g, n)]) t i m') /\ hasA (cur s0) t i m)).
    { intros t i m. rewrite C4. assert (Wr : forall m', written (L ++ [(g, n)]) t i m' <-> written L t i m' \/ (rbit (slhs g) t i /\ m' = n)).
      { intros m'. split.
        - intros (g0 & I0 & B0). apply in_app_or in I0. destruct I0 as [I0|[[= <- <-]|[]]]; [left; exists g0; auto|auto].
        - intros [(g0 & I0 & B0)|[B ->]]; [exists g0|exists g]; (split; [apply in_or_app|assumption]); [now left|right; now left]. }
      rewrite Wr. destruct (rbit_dec (slhs g) t i) as [B|B].
      - split.
        + intros Q. destruct (A1 t i m Q) as [[_ ->]|Q']; [auto|]. apply H2, Hh in Q'.
          (* overwritten: only [n] remains *)
          left. right. split; [exact B|]. apply (lvs_only n t i (slhs g) s2 s3); auto; try (now rewrite Cu); intros t0 b0 I0; now apply (writes g).
        + intros [[(g0 & I0 & B0)|[_ ->]]|[N _]].
          * destruct (Old t i m); [exists g0; auto|exact B].
          * now apply A2.
          * destruct N. exists n. apply Wr. auto.
      - split.
        + intros Q. destruct (A1 t i m Q) as [[Q' _]|Q']; [contradiction|]. apply H2, Hh in Q'. destruct Q' as [Q'|[Q1 Q2]]; [auto|].
          right. split; [|exact Q2]. intros (m' & Q3). apply Wr in Q3. destruct Q3 as [Q3|[Q3 _]]; [|contradiction]. apply Q1. eauto.
        + intros Q. apply A3; [|exact B]. apply H2, Hh. destruct Q as [[Q|[Q _]]|[Q1 Q2]]; [now left|contradiction|].
          right. split; [|exact Q2]. intros (m' & Q3). apply Q1. exists m'. apply Wr. now left. }
    destruct (IH s4 (L ++ [(g, n)])) as (s' & L' & E' & S' & M').
    { rewrite map_app. cbn. rewrite <- app_assoc. exact Eg. }
    { split.
      - rewrite C4. exact O3.
      - rewrite C4. exact R3.
      - eapply gle_trans; eauto.
      - exact Has4.
      - intros g0 n0 I0. apply in_app_or in I0. pose proof (gle_next _ _ Gs) as Ls. pose proof (gle_next _ _ Gl) as Ll. destruct I0 as [I0|[[= <- <-]|[]]].
        + destruct (Hn g0 n0 I0) as (B1 & B2 & B3). split; [lia|]. split; [eapply ctl_gle; eauto|]. intros t i R. eapply rdone_gle; [exact Gs|]. now apply B3.
        + pose proof (gle_next _ _ F4) as L4. rewrite F3 in L4. split; [lia|]. split; [eapply ctl_gle; [exact F4|]; rewrite F3; exact Ct|].
          intros t i R. eapply rdone_same; [|now apply P4]. intros m.
          assert (Nw : forall m', ~ written (L ++ [(g, n)]) t i m').
          { intros m' (g1 & I1 & B1). apply (fresh g g1 t i Ig); auto. apply (in_map fst) in I1. rewrite map_app in I1. cbn in I1. rewrite Eg.
            apply in_app_or in I1. apply in_or_app. destruct I1 as [I1|[I1|[]]]; [now left|right; now left]. }
          rewrite <- C4, Has4. split.
          * intros [Q|[_ Q]]; [destruct (Nw _ Q)|exact Q].
          * intros Q. right. split; [|exact Q]. intros (m' & Q'). exact (Nw _ Q'). }
    exists s', L'. split; [exact E'|]. auto.
Qed.
Lemma segs_start : okA W (cur s0) -> areach (cur s0) = true -> linv s0 [].
Proof.
  intros O A. split; auto; [apply gle_refl| |intros g n []].
  intros t i m. split; [|intros [(g & [] & _)|[_ H]]; exact H]. intros H. right. split; [|exact H]. intros (m' & g & [] & _).
Qed.
Lemma aligned_run : okA W (cur s0) -> areach (cur s0) = true ->
  exists s' L, exec nm (fun _ => false) None s0 (SAligned 0 true gs) = DOk s' /\ linv s' L /\ map fst L = gs.
Proof. intros O A. cbn [exec]. unfold do_aligned. apply (segs_run gs s0 [] eq_refl). now apply segs_start. Qed.
End Segs.
End Run.

(** The whole assignment at once is one segment. *)
Lemma legacy_aligned nm bl s lhs rhs : areach (cur s) = true ->
  exec nm (fun _ => false) None s (SLegacy 0 bl lhs rhs) = exec nm (fun _ => false) None s (SAligned 0 bl [M_DFA.Seg lhs [ROpaque rhs]]).
Proof.
  intros Ar. cbn [exec]. unfold do_legacy, do_aligned. cbn [each]. unfold do_seg.
  replace (with_cur s (AS (adefs (cur s)) (anode (cur s)) (acond (cur s)) (areach (cur s)))) with s by (destruct s as [[] ?]; reflexivity).
  pose proof (new_node nm s (KAssign 0) false) as Nn. cbv zeta in Nn.
  destruct (create s (KAssign 0)) as [s1 n]. set (s2 := updateNode s1 n false) in *. destruct Nn as (_ & _ & _ & _ & Cu). cbn [slhs srhs].
  assert (Q : forall l s, areach (cur s) = true -> each (noteReference nm (fun _ => false) None (Some bl)) s l = each (fun s x => handleLvalue bl s (fst x) (snd x)) s l).
  { induction l as [|x l IHl]; intros s' As; [reflexivity|]. cbn [each]. unfold noteReference at 1. rewrite As. cbn [negb].
    destruct (handleLvalue bl s' (fst x) (snd x)) as [s3|] eqn:X; [|reflexivity]. cbn [dbind]. apply IHl.
    unfold handleLvalue in X. destruct (anode (cur s')); [|discriminate]. destruct bl; [|injection X as <-; exact As]. unfold trackDrivers in X.
    destruct (addDrivers _ _ _ _); [|discriminate]. cbn [dbind] in X. injection X as <-. exact As. }
  rewrite Q by (rewrite Cu; exact Ar).
  destruct (each (fun s x => handleLvalue bl s (fst x) (snd x)) s2 lhs) as [s3|]; [|reflexivity]. cbn [dbind each drive_rhs].
  destruct (each (noteReference nm (fun _ => false) None None) s3 rhs); reflexivity.
Qed.

(** * Joins *)
Lemma nodes_gle s x y : exists s' z, mergeNodes s x y = (s', z) /\ cur s' = cur s /\ gle (fxs s) (fxs s').
Proof.
  assert (T : forall z, exists s' z', (s, z : option nat) = (s', z') /\ cur s' = cur s /\ gle (fxs s) (fxs s')).
  { intros z. exists s, z. split; [reflexivity|]. split; [reflexivity|apply gle_refl]. }
  unfold mergeNodes. destruct x as [p|], y as [q|]; try apply T. destruct (Nat.eqb p q) eqn:E; [apply T|].
  unfold b_merge. rewrite E. cbn [create]. eexists _, _. split; [reflexivity|]. split; [reflexivity|].
  split; [|reflexivity]. unfold fle. cbn. split; [lia|]. split; [|split; [|apply incl_refl]]; intros z I; apply in_or_app; now left.
Qed.
Lemma join_ok W s other : aligned_writes W -> okA W (cur s) -> okA W other -> areach (cur s) = true -> areach other = true ->
  exists s', joinState s other = DOk s' /\ okA W (cur s') /\ areach (cur s') = true /\ gle (fxs s) (fxs s') /\
    forall t i m, hasA (cur s') t i m <-> hasA (cur s) t i m \/ hasA other t i m.
Proof.
  intros A O1 O2 R1 R2. unfold joinState. rewrite R1, R2. cbn [Bool.eqb]. unfold mergeStates.
  destruct (merge_defs_ok W A (adefs other) 0 (cur s)) as (a & E & Oa & Q1 & Q2 & Q3 & H).
  { intros j d Ej. cbn. rewrite <- (defs_some _ _ _ Ej). apply O2. }
  { exact O1. }
  rewrite E. cbn [dbind]. destruct (nodes_gle (with_cur s a) (anode a) (anode other)) as (s1 & n & E1 & C1 & G1). rewrite E1.
  destruct (nodes_gle s1 (acond a) (acond other)) as (s2 & c & E2 & C2 & G2). rewrite E2.
  eexists. split; [reflexivity|]. cbn [with_cur cur fxs]. split; [exact Oa|]. split; [cbn; congruence|]. split; [eapply gle_trans; eauto|].
  intros t i m. change (hasA (AS (adefs a) n c (areach a)) t i m) with (hasA a t i m). rewrite H. unfold hasA at 3, defs.
  split; (intros [Q|Q]; [now left|right]).
  - destruct Q as (j & -> & Q). exact Q.
  - exists t. split; [lia|exact Q].
Qed.
