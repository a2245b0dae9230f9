(** Proofs about whole designs: what the analysis of one continuous assignment adds. *)
From Verif Require Import Base M_Graph M_Range M_Netlist M_Annot M_Interval M_Heap M_Drivers M_Pending M_DFA
  S_Interval S_Drivers S_Pending S_DFA P_Interval P_Heap P_Drivers P_DriversX P_Pending P_DFA P_DFA2 P_Flow2.
Local Open Scope Z_scope.

Section Run.
Variable nm : nat -> str.
Notation note := (noteReference nm (fun _ => false) None).
Notation hrv := (handleRvalue nm None).
Notation drhs := (drive_rhs nm (fun _ => false) None).
Variable W : trace.
Hypothesis aligned : aligned_writes W.

(** Reading adds constants, edges from them, and pending R-values, all for node [n]. *)
Record adds (n : nat) (C : Prop) (rs : list ref) (f f' : fx) : Prop := {
  ad_next : (fnext f <= fnext f')%nat;
  ad_old : incl (fnodes f) (fnodes f');
  ad_new : forall m k, In (m, k) (fnodes f') -> In (m, k) (fnodes f) \/ ((fnext f <= m < fnext f')%nat /\ k = KConst);
  ad_all : forall m, (fnext f <= m < fnext f')%nat -> In (m, KConst) (fnodes f');
  ad_dep : forall d, In d (fdeps f') -> In d (fdeps f) \/ exists m, d = DPlain m n /\ (fnext f <= m < fnext f')%nat /\ C;
  ad_pend : forall p, In p (fpend f') -> In p (fpend f) \/
              (pnode p = Some n /\ pref p = nm (psym p) /\ pkind p = EKNone /\ forall i, bit (pbounds p) i -> rbit rs (psym p) i);
  ad_deps : incl (fdeps f) (fdeps f');
  ad_pends : incl (fpend f) (fpend f');
  ad_const : C -> exists m, (fnext f <= m < fnext f')%nat /\ In (DPlain m n) (fdeps f');
  ad_reads : forall t i, rbit rs t i -> pended (fpend f') n t i }.
Lemma adds_refl n f : adds n False [] f f.
Proof. split; auto using incl_refl; try (intros; lia); try tauto. intros t i (b & [] & _). Qed.
Lemma adds_trans n C C' rs rs' f g k : adds n C rs f g -> adds n C' rs' g k -> adds n (C \/ C') (rs ++ rs') f k.
Proof.
  intros [A1 A2 A3 A4 A5 A6 A7 A8 A9 A10] [B1 B2 B3 B4 B5 B6 B7 B8 B9 B10]. split; eauto using incl_tran.
  - lia.
  - intros m x I. destruct (B3 m x I) as [J|[L E]]; [|right; split; [lia|exact E]]. destruct (A3 m x J) as [K|[L E]]; [now left|right; split; [lia|exact E]].
  - intros m L. destruct (Nat.lt_ge_cases m (fnext g)) as [H|H]; [apply B2, A4; lia|apply B4; lia].
  - intros d I. destruct (B5 d I) as [J|(m & E & L & H)]; [|right; exists m; split; [exact E|]; split; [lia|now right]].
    destruct (A5 d J) as [K|(m & E & L & H)]; [now left|]. right. exists m. split; [exact E|]. split; [lia|now left].
  - intros p I. destruct (B6 p I) as [J|(E & E1 & E2 & H)].
    + destruct (A6 p J) as [K|(E & E1 & E2 & H)]; [now left|]. right. do 3 (split; [assumption|]). intros i B. destruct (H i B) as (b & Ib & Q). exists b. split; [apply in_or_app; now left|exact Q].
    + right. do 3 (split; [assumption|]). intros i B. destruct (H i B) as (b & Ib & Q). exists b. split; [apply in_or_app; now right|exact Q].
  - intros [H|H].
    + destruct (A9 H) as (m & L & I). exists m. split; [lia|now apply B7].
    + destruct (B9 H) as (m & L & I). exists m. split; [lia|exact I].
  - intros t i (b & I & B). apply in_app_or in I. destruct I as [I|I].
    + eapply pended_incl; [exact B8|]. apply A10. exists b. auto.
    + apply B10. exists b. auto.
Qed.
Lemma adds_same n (C C' : Prop) rs rs' f g : (C <-> C') -> rs = rs' -> adds n C rs f g -> adds n C' rs' f g.
Proof.
  intros H -> [A1 A2 A3 A4 A5 A6 A7 A8 A9 A10]. split; auto.
  - intros d J. destruct (A5 d J) as [K|(m & E & L & Q)]; [now left|]. right. exists m. tauto.
  - tauto.
Qed.

(** No bit of the references has been written. *)
Definition unwritten (a : astate) (rs : list ref) : Prop := forall t i, rbit rs t i -> forall n, ~ hasA a t i n.

Lemma rv_one_s s n t b : anode (cur s) = Some n -> okA W (cur s) -> unwritten (cur s) [(t, b)] ->
  exists s', hrv s t b = DOk s' /\ cur s' = cur s /\ adds n False [(t, b)] (fxs s) (fxs s').
Proof.
  intros An Ok Un. destruct (okA_dok W _ t Ok) as [K V].
  destruct (handleRvalue_node nm None s t b n An K V) as (s' & ds & ps & E & [R1 R2] & H).
  exists s'. split; [exact E|]. split; [exact R1|]. rewrite R2. split; cbn; auto using incl_refl; try (intros; lia); try tauto.
  - intros d I. apply in_app_or in I. destruct I as [I|I]; [now left|]. exfalso.
    destruct (rds_sound _ _ _ _ _ _ H d I) as (sy & b' & m & i & _ & [[= <- <-]|[]] & B & Ha). apply (Un t i) with (n := m); [|exact Ha]. exists b. split; [now left|exact B].
  - intros p I. apply in_app_or in I. destruct I as [I|I]; [now left|]. right.
    destruct (rds_psound _ _ _ _ _ _ H p I) as (Pn & b' & J & Q). destruct (rds_pref _ _ _ _ _ _ H p I) as [P1 P2]. do 3 (split; [assumption|]).
    intros i B. exists b'. split; [exact J|]. apply Q, B.
  - apply incl_appl, incl_refl.
  - apply incl_appl, incl_refl.
  - intros t' i (b' & [[= <- <-]|[]] & B).
    assert (N : ~ covers (ivs (defs (cur s) t)) i).
    { intros Cv. destruct (proj1 (covers_has (defs (cur s) t) i (proj1 (ok_uns _ _ _ (Ok t))) (ok_ne _ _ _ (Ok t))) Cv) as (m & Ha).
      apply (Un t i) with (n := m); [|exact Ha]. exists b. split; [now left|exact B]. }
    destruct (rds_pcomplete _ _ _ _ _ _ H t b i (or_introl eq_refl) B N) as (p & Ip & Sy & Bp).
    exists p. split; [apply in_or_app; now right|]. split; [exact Sy|]. split; [|exact Bp]. now destruct (rds_psound _ _ _ _ _ _ H p Ip).
Qed.
Lemma unwritten_app a r1 r2 : unwritten a (r1 ++ r2) -> unwritten a r1 /\ unwritten a r2.
Proof. intros U. split; intros t i (b & I & B); apply U; exists b; (split; [apply in_or_app; auto|exact B]). Qed.

Lemma rvs_s n : forall refs s, anode (cur s) = Some n -> areach (cur s) = true -> okA W (cur s) -> unwritten (cur s) refs ->
  exists s', each (note None) s refs = DOk s' /\ cur s' = cur s /\ adds n False refs (fxs s) (fxs s').
Proof.
  induction refs as [|[t b] refs IH]; intros s An Ar Ok Un; cbn [each].
  - exists s. split; [reflexivity|]. split; [reflexivity|apply adds_refl].
  - unfold noteReference at 1. rewrite Ar. cbn [negb fst snd].
    destruct (unwritten_app _ [(t, b)] refs Un) as [U1 U2].
    destruct (rv_one_s s n t b An Ok U1) as (s1 & E1 & C1 & F1). rewrite E1. cbn [dbind].
    destruct (IH s1) as (s2 & E2 & C2 & F2); try (rewrite C1; assumption).
    exists s2. split; [exact E2|]. split; [congruence|]. eapply adds_same; [| |eapply adds_trans; [exact F1|exact F2]]; [tauto|reflexivity].
Qed.
Lemma drives_s n : forall rs s, anode (cur s) = Some n -> areach (cur s) = true -> okA W (cur s) -> unwritten (cur s) (flat_map seg_reads rs) ->
  exists s', each drhs s rs = DOk s' /\ cur s' = cur s /\ adds n (In RConst rs) (flat_map seg_reads rs) (fxs s) (fxs s').
Proof.
  induction rs as [|r rs IH]; intros s An Ar Ok Un; cbn [each].
  - exists s. split; [reflexivity|]. split; [reflexivity|apply adds_refl].
  - cbn [flat_map] in Un. destruct (unwritten_app _ _ _ Un) as [U1 U2].
    assert (One : exists s', drhs s r = DOk s' /\ cur s' = cur s /\ adds n (r = RConst) (seg_reads r) (fxs s) (fxs s')).
    { destruct r as [[t b]|l| |]; cbn [drive_rhs seg_reads] in *.
      - destruct (rv_one_s s n t b An Ok U1) as (s1 & E1 & C1 & F1). exists s1. split; [exact E1|]. split; [exact C1|].
        eapply adds_same; [| |exact F1]; [split; [tauto|discriminate]|reflexivity].
      - destruct (rvs_s n l s An Ar Ok U1) as (s1 & E1 & C1 & F1). exists s1. split; [exact E1|]. split; [exact C1|].
        eapply adds_same; [| |exact F1]; [split; [tauto|discriminate]|reflexivity].
      - exists s. split; [reflexivity|]. split; [reflexivity|]. eapply adds_same; [| |apply adds_refl]; [split; [tauto|discriminate]|reflexivity].
      - rewrite An. cbn [create]. eexists. split; [reflexivity|]. split; [reflexivity|]. split; cbn; auto using incl_refl, incl_appl.
        + intros m k I. apply in_app_or in I. destruct I as [I|[[= <- <-]|[]]]; [now left|]. right. split; [lia|reflexivity].
        + intros m L. apply in_or_app. right. left. f_equal. lia.
        + intros d I. apply in_app_or in I. destruct I as [I|[<-|[]]]; [now left|]. right. eexists. split; [reflexivity|]. split; [lia|reflexivity].
        + intros _. eexists. split; [|apply in_or_app; right; now left]. lia.
        + intros t i (b & [] & _). }
    destruct One as (s1 & E1 & C1 & F1). rewrite E1. cbn [dbind].
    destruct (IH s1) as (s2 & E2 & C2 & F2); try (rewrite C1; assumption).
    exists s2. split; [exact E2|]. split; [congruence|]. eapply adds_same; [| |eapply adds_trans; [exact F1|exact F2]]; reflexivity.
Qed.

(** * Segments *)
Variable gs : list seg.
Hypothesis writes : forall g t b, In g gs -> In (t, b) (slhs g) -> inW W t (lower b) (upper b).
Hypothesis apart : forall p g q g' r, gs = p ++ g :: q ++ g' :: r -> forall t i, ~ (rbit (slhs g) t i /\ rbit (slhs g') t i).
Hypothesis fresh : forall g g' t i, In g gs -> In g' gs -> rbit (flat_map seg_reads (srhs g)) t i -> ~ rbit (slhs g') t i.

(** The nodes made are one for each segment done, and constants; [sg] tells which. *)
Record rsnd (n0 : nat) (s : st) (done : list seg) (sg : nat -> option seg) : Prop := {
  rs_ok : okA W (cur s);
  rs_reach : areach (cur s) = true;
  rs_le : (n0 <= fnext (fxs s))%nat;
  rs_nodes : forall n k, In (n, k) (fnodes (fxs s)) -> (n0 <= n < fnext (fxs s))%nat /\ k = match sg n with Some _ => KAssign 0 | None => KConst end;
  rs_all : forall n, (n0 <= n < fnext (fxs s))%nat -> exists k, In (n, k) (fnodes (fxs s));
  rs_seg : forall n g, (n0 <= n < fnext (fxs s))%nat -> sg n = Some g -> In g done;
  rs_dep : forall d, In d (fdeps (fxs s)) -> exists m n g, d = DPlain m n /\ (n0 <= m < fnext (fxs s))%nat /\ (n0 <= n < fnext (fxs s))%nat /\
             sg m = None /\ sg n = Some g /\ In RConst (srhs g);
  rs_pend : forall p, In p (fpend (fxs s)) -> exists n g, pnode p = Some n /\ pref p = nm (psym p) /\ pkind p = EKNone /\ (n0 <= n < fnext (fxs s))%nat /\ sg n = Some g /\
             forall i, bit (pbounds p) i -> rbit (flat_map seg_reads (srhs g)) (psym p) i;
  rs_has : forall t i m, hasA (cur s) t i m -> exists g, (n0 <= m < fnext (fxs s))%nat /\ sg m = Some g /\ In g done /\ rbit (slhs g) t i;
  rs_w : forall n g t i, (n0 <= n < fnext (fxs s))%nat -> sg n = Some g -> rbit (slhs g) t i -> hasA (cur s) t i n;
  rs_r : forall n g t i, (n0 <= n < fnext (fxs s))%nat -> sg n = Some g -> rbit (flat_map seg_reads (srhs g)) t i -> pended (fpend (fxs s)) n t i;
  rs_c : forall n g, (n0 <= n < fnext (fxs s))%nat -> sg n = Some g -> In RConst (srhs g) ->
           exists m, (n0 <= m < fnext (fxs s))%nat /\ sg m = None /\ In (DPlain m n) (fdeps (fxs s));
  rs_cov : forall g, In g done -> exists n, (n0 <= n < fnext (fxs s))%nat /\ sg n = Some g;
  rs_one : forall n n' g g' t i, (n0 <= n < fnext (fxs s))%nat -> (n0 <= n' < fnext (fxs s))%nat -> sg n = Some g -> sg n' = Some g' -> rbit (slhs g) t i -> rbit (slhs g') t i -> n = n' }.

Lemma run_segs_s n0 : forall rest s done sg, gs = done ++ rest -> rsnd n0 s done sg ->
  exists s' sg', each (do_seg nm (fun _ => false) None 0 true None None) s rest = DOk s' /\ rsnd n0 s' gs sg'.
Proof.
  induction rest as [|g rest IH]; intros s done sg Eg [O Ar Le Nd Al Sg Dp Pd Hh Fw Fr Fc Fv Fo]; cbn [each].
  - exists s, sg. rewrite app_nil_r in Eg. subst done. split; [reflexivity|]. now split.
  - unfold do_seg at 1. cbn [create updateNode with_cur with_fx cur fxs acond adefs areach].
    set (n := fnext (fxs s)) in *.
    set (f1 := FX (S n) (fnodes (fxs s) ++ [(n, KAssign 0)]) (fdeps (fxs s)) (fpend (fxs s)) (flv (fxs s))).
    assert (Ig : In g gs) by (rewrite Eg; apply in_or_app; right; now left).
    assert (Id : incl done gs) by (rewrite Eg; apply incl_appl, incl_refl).
    destruct (lvs W aligned (fun s x => handleLvalue true s (fst x) (snd x)) n (fun _ _ _ => eq_refl) (slhs g)
                (ST (AS (adefs (cur s)) (Some n) None (areach (cur s))) f1))
      as (s1 & E1 & F1 & O1 & N1 & R1 & H1 & H2 & H3); cbn [cur anode areach].
    { reflexivity. } { exact Ar. } { exact O. } { intros t b I. now apply (writes g). }
    cbn [cur fxs] in *.
    match goal with |- context [each _ ?x (slhs g)] => replace x with (ST (AS (adefs (cur s)) (Some n) None (areach (cur s))) f1) end.
    2: { unfold with_cur, with_fx, updateNode. cbn. reflexivity. }
    rewrite E1. cbn [dbind].
    assert (Hold : forall t i m, hasA (cur s1) t i m -> (rbit (slhs g) t i /\ m = n) \/ hasA (cur s) t i m) by exact H1.
    assert (Un : unwritten (cur s1) (flat_map seg_reads (srhs g))).
    { intros t i R m Q. destruct (Hold t i m Q) as [[B _]|Q']; [exact (fresh g g t i Ig Ig R B)|].
      destruct (Hh t i m Q') as (g0 & _ & _ & I0 & B0). exact (fresh g g0 t i Ig (Id g0 I0) R B0). }
    assert (Old : forall t i m, hasA (cur s) t i m -> ~ rbit (slhs g) t i).
    { intros t i m Q B. destruct (Hh t i m Q) as (g0 & _ & _ & I0 & B0). apply in_split in I0. destruct I0 as (p & q & ->).
      rewrite <- app_assoc in Eg. cbn [app] in Eg. exact (apart p g0 q g rest Eg t i (conj B0 B)). }
    destruct (drives_s n (srhs g) s1 N1 R1 O1 Un) as (s2 & E2 & C2 & F2). rewrite E2. cbn [dbind].
    rewrite F1 in F2. destruct F2 as [A1 A2 A3 A4 A5 A6 A7 A8 A9 A10]. unfold f1 in A1, A2, A3, A4, A5, A6, A7, A8, A9. cbn [fnext fnodes fdeps fpend] in *.
    set (sg' := fun m => if Nat.eqb m n then Some g else if (n <? m)%nat then None else sg m).
    assert (Sn : sg' n = Some g) by (unfold sg'; now rewrite Nat.eqb_refl).
    assert (Sold : forall m, (m < n)%nat -> sg' m = sg m).
    { intros m L. unfold sg'. destruct (Nat.eqb_spec m n) as [->|_]; [lia|]. destruct (Nat.ltb_spec n m); [lia|reflexivity]. }
    assert (Snew : forall m, (n < m)%nat -> sg' m = None).
    { intros m L. unfold sg'. destruct (Nat.eqb_spec m n) as [->|_]; [lia|]. destruct (Nat.ltb_spec n m); [reflexivity|lia]. }
    assert (Which : forall m g0, (n0 <= m)%nat -> sg' m = Some g0 -> (m < n)%nat /\ sg m = Some g0 \/ m = n /\ g0 = g).
    { intros m g0 L E. destruct (Nat.lt_trichotomy m n) as [Q|[->|Q]].
      - rewrite Sold in E by exact Q. auto.
      - rewrite Sn in E. injection E as <-. auto.
      - rewrite Snew in E by exact Q. discriminate. }
    apply (IH s2 (done ++ [g]) sg'); [rewrite <- app_assoc; exact Eg|]. split.
    + rewrite C2. exact O1.
    + rewrite C2. exact R1.
    + lia.
    + intros m k I. destruct (A3 m k I) as [J|[L ->]].
      * apply in_app_or in J. destruct J as [J|[[= <- <-]|[]]]; [|rewrite Sn; split; [lia|reflexivity]].
        destruct (Nd m k J) as [L E]. rewrite Sold by lia. split; [lia|exact E].
      * rewrite Snew by lia. split; [lia|reflexivity].
    + intros m L. destruct (Nat.lt_trichotomy m n) as [Q|[->|Q]].
      * destruct (Al m) as (k & I); [lia|]. exists k. apply A2, in_or_app. now left.
      * exists (KAssign 0). apply A2, in_or_app. right. now left.
      * exists KConst. apply A4. lia.
    + intros m g0 L E. apply in_or_app. destruct (Which m g0) as [[Q E']|[-> ->]]; auto; [lia|left; eapply Sg; eauto; lia|right; now left].
    + intros d I. destruct (A5 d I) as [J|(m & -> & L & C)].
      * destruct (Dp d J) as (m & k & g0 & -> & L1 & L2 & N & G & K). exists m, k, g0. rewrite !Sold by lia. split; [reflexivity|]. split; [lia|]. split; [lia|]. auto.
      * exists m, n, g. rewrite Sn, Snew by lia. split; [reflexivity|]. split; [lia|]. split; [lia|]. auto.
    + intros p I. destruct (A6 p I) as [J|(Pn & P1 & P2 & Q)].
      * destruct (Pd p J) as (m & g0 & Pn & P1 & P2 & L & E & Q). exists m, g0. rewrite Sold by lia. do 3 (split; [assumption|]). split; [lia|]. auto.
      * exists n, g. rewrite Sn. do 3 (split; [assumption|]). split; [lia|]. auto.
    + intros t i m Q. rewrite C2 in Q. destruct (Hold t i m Q) as [[B ->]|Q'].
      * exists g. rewrite Sn. split; [lia|]. split; [reflexivity|]. split; [apply in_or_app; right; now left|exact B].
      * destruct (Hh t i m Q') as (g0 & L & E & I0 & B0). exists g0. rewrite Sold by lia. split; [lia|]. split; [exact E|]. split; [apply in_or_app; now left|exact B0].
    + intros m g0 t i L E B. rewrite C2. destruct (Which m g0) as [[Q E']|[-> ->]]; auto; [lia|].
      assert (Hm : hasA (cur s) t i m) by (eapply Fw; eauto; lia). apply H3; [exact Hm|eapply Old; eauto].
    + intros m g0 t i L E B. destruct (Which m g0) as [[Q E']|[-> ->]]; auto; [lia|].
      eapply pended_incl; [exact A8|]. eapply Fr; eauto. lia.
    + intros m g0 L E B. destruct (Which m g0) as [[Q E']|[-> ->]]; auto; [lia| |].
      * destruct (Fc m g0) as (k & L' & N & I); auto; [lia|]. exists k. rewrite Sold by lia. split; [lia|]. split; [exact N|now apply A7].
      * destruct (A9 B) as (k & L' & I). exists k. rewrite Snew by lia. split; [lia|]. auto.
    + intros g0 I. apply in_app_or in I. destruct I as [I|[<-|[]]].
      * destruct (Fv g0 I) as (m & L & E). exists m. rewrite Sold by lia. split; [lia|exact E].
      * exists n. split; [lia|exact Sn].
    + intros m m' g0 g1 t i L L' E E' B B'.
      destruct (Which m g0) as [[Q E1']|[-> ->]]; [lia|exact E| |]; destruct (Which m' g1) as [[Q' E2']|[-> ->]]; try lia; try exact E'.
      * refine (Fo m m' g0 g1 t i _ _ E1' E2' B B'); lia.
      * exfalso. refine (Old t i m (Fw m g0 t i _ E1' B) B'). lia.
      * exfalso. refine (Old t i m' (Fw m' g1 t i _ E2' B') B). lia.
Qed.

Lemma run_aligned_s n0 : exists s' sg, exec nm (fun _ => false) None (start n0) (SAligned 0 true gs) = DOk s' /\ rsnd n0 s' gs sg.
Proof.
  cbn [exec]. unfold do_aligned. apply (run_segs_s n0 gs (start n0) [] (fun _ => None) eq_refl). split; cbn.
  - apply (si_ok _ _ _ (start_inv W n0)).
  - reflexivity.
  - lia.
  - intros n k [].
  - intros n L. lia.
  - intros n g L. lia.
  - intros d [].
  - intros p [].
  - intros t i m (x & l & I & _). unfold defs in I. cbn in I. destruct t; destruct I.
  - intros n g t i L. lia.
  - intros n g t i L. lia.
  - intros n g L. lia.
  - intros g [].
  - intros n n' g g' t i L. lia.
Qed.
End Run.

(** The whole assignment at once is one segment. *)
Lemma whole_same nm n0 lhs rhs s' : exec nm (fun _ => false) None (start n0) (SAligned 0 true [M_DFA.Seg lhs [ROpaque rhs]]) = DOk s' ->
  exec nm (fun _ => false) None (start n0) (SLegacy 0 true lhs rhs) = DOk s'.
Proof.
  intros E. cbn [exec] in *. unfold do_legacy, do_aligned in *. cbn [each] in E. unfold do_seg in E.
  cbn [start cur fxs create anode acond topState with_cur with_fx updateNode adefs areach fnext fnodes fdeps fpend flv emit slhs srhs] in *.
  assert (Q : forall f l s, (forall s x, areach (cur s) = true -> f s x = handleLvalue true s (fst x) (snd x)) ->
    areach (cur s) = true -> each f s l = each (fun s x => handleLvalue true s (fst x) (snd x)) s l).
  { intros f l. induction l as [|x l IHl]; intros s Hf Ar; [reflexivity|]. cbn [each]. rewrite (Hf s x Ar).
    destruct (handleLvalue true s (fst x) (snd x)) as [s3|] eqn:X; [|reflexivity]. cbn [dbind]. apply IHl; [exact Hf|].
    unfold handleLvalue in X. destruct (anode (cur s)); [|discriminate]. unfold trackDrivers in X.
    destruct (addDrivers _ _ _ _); [|discriminate]. cbn [dbind] in X. injection X as <-. exact Ar. }
  unfold with_cur, with_fx in *. cbn [cur fxs] in *.
  rewrite (Q (noteReference nm (fun _ => false) None (Some true))); [|intros s x Ar; unfold noteReference; now rewrite Ar|reflexivity].
  destruct (each (fun s x => handleLvalue true s (fst x) (snd x)) _ lhs) as [s3|]; [|discriminate]. cbn [dbind each drive_rhs] in *.
  destruct (each (noteReference nm (fun _ => false) None None) s3 rhs) as [s4|]; [|discriminate]. exact E.
Qed.
