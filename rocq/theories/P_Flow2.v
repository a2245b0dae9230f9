(** Proofs about whole designs: the analysis of one continuous assignment. *)
From Verif Require Import Base M_Graph M_Range M_Netlist M_Annot M_Interval M_Heap M_Drivers M_Pending M_DFA
  S_Interval S_Drivers S_DFA P_Interval P_Heap P_Drivers P_DriversX P_DFA P_DFA2.
Local Open Scope Z_scope.

Definition seg_reads (r : rsrc) : list ref :=
  match r with RLsp x => [x] | ROpaque l => l | RPadding => [] | RConst => [] end.
(** A list of references has bit [i] of [t]. *)
Definition rbit (l : list ref) (t : nat) (i : Z) : Prop := exists b, In (t, b) l /\ bit b i.

Section Run.
Variable nm : nat -> str.
Notation note := (noteReference nm (fun _ => false) None).
Notation hrv := (handleRvalue nm None).
Notation drhs := (drive_rhs nm (fun _ => false) None).
Variable W : trace.
Hypothesis aligned : aligned_writes W.

Definition fle (f f' : fx) : Prop :=
  (fnext f <= fnext f')%nat /\ incl (fnodes f) (fnodes f') /\ incl (fdeps f) (fdeps f') /\ incl (fpend f) (fpend f').
Lemma fle_refl f : fle f f.
Proof. unfold fle. auto using incl_refl. Qed.
Lemma fle_trans f g k : fle f g -> fle g k -> fle f k.
Proof. intros (A & B & C & D) (A' & B' & C' & D'). unfold fle. repeat split; eauto using incl_tran, Nat.le_trans. Qed.

(** * L-values *)
Lemma lvs f n : (forall s x, areach (cur s) = true -> f s x = handleLvalue true s (fst x) (snd x)) ->
  forall refs s, anode (cur s) = Some n -> areach (cur s) = true -> okA W (cur s) ->
  (forall t b, In (t, b) refs -> inW W t (lower b) (upper b)) ->
  exists s', each f s refs = DOk s' /\ fxs s' = fxs s /\ okA W (cur s') /\ anode (cur s') = Some n /\
    areach (cur s') = true /\
    (forall t i m, hasA (cur s') t i m -> (rbit refs t i /\ m = n) \/ hasA (cur s) t i m) /\
    (forall t i, rbit refs t i -> hasA (cur s') t i n) /\
    (forall t i m, hasA (cur s) t i m -> ~ rbit refs t i -> hasA (cur s') t i m).
Proof.
  intros Hf. induction refs as [|[t b] refs IH]; intros s An Ar Ok Hw; cbn [each].
  - exists s. split; [reflexivity|]. split; [reflexivity|]. split; [exact Ok|]. split; [exact An|]. split; [exact Ar|].
    split; [auto|]. split; [intros t i (b & [] & _)|auto].
  - rewrite (Hf s (t, b) Ar). unfold handleLvalue. rewrite An. cbn [fst snd].
    destruct (track_ok W (cur s) t b [n] false aligned Ok) as (a & E & Oa & A1 & A2 & A3 & H); [apply Hw; now left|discriminate|].
    rewrite E. cbn [dbind]. unfold with_cur.
    destruct (IH (ST a (fxs s))) as (s' & E' & F' & O' & N' & R' & H1 & H2 & H3); cbn [cur fxs]; try congruence; try exact Oa.
    { intros t' b' I. apply Hw. now right. }
    cbn [cur fxs] in *. exists s'. split; [exact E'|]. split; [exact F'|]. split; [exact O'|]. split; [exact N'|]. split; [exact R'|].
    split; [|split].
    + intros t' i m Q. destruct (H1 t' i m Q) as [[(b' & I & B) ->]|Q'].
      * left. split; [|reflexivity]. exists b'. split; [now right|exact B].
      * apply H in Q'. destruct Q' as [(-> & B & [[->|[]]|[Q' _]])|[_ Q']]; [|discriminate|now right].
        left. split; [|reflexivity]. exists b. split; [now left|exact B].
    + intros t' i (b' & I & B).
      assert (X : hasA a t' i n -> hasA (cur s') t' i n).
      { intros Q. destruct (existsb (fun x => Nat.eqb (fst x) t' && bitb (snd x) i) refs) eqn:X.
        - apply existsb_exists in X. destruct X as ([t2 b2] & I2 & Q2). cbn [fst snd] in Q2. apply andb_true_iff in Q2.
          destruct Q2 as [Q2 Q3]. apply Nat.eqb_eq in Q2. subst t2. apply bitb_spec in Q3. apply H2. exists b2. auto.
        - apply H3; [exact Q|]. intros (b2 & I2 & Q2). apply bitb_spec in Q2.
          assert (T : existsb (fun x => Nat.eqb (fst x) t' && bitb (snd x) i) refs = true).
          { apply existsb_exists. exists (t', b2). split; [exact I2|]. cbn [fst snd]. rewrite Nat.eqb_refl, Q2. reflexivity. }
          congruence. }
      destruct I as [[= <- <-]|I]; [|apply H2; exists b'; auto]. apply X, H. left. split; [reflexivity|]. split; [exact B|]. left. now left.
    + intros t' i m Q N. apply H3; [apply H|].
      * right. split; [|exact Q]. intros [-> B]. apply N. exists b. split; [now left|exact B].
      * intros (b' & I & B). apply N. exists b'. split; [now right|exact B].
Qed.

(** * R-values *)
Definition pended (ps : list pend) (n t : nat) (i : Z) : Prop :=
  exists p, In p ps /\ psym p = t /\ pnode p = Some n /\ bit (pbounds p) i.
Lemma pended_incl ps ps' n t i : incl ps ps' -> pended ps n t i -> pended ps' n t i.
Proof. intros H (p & I & R). exists p. split; [now apply H|exact R]. Qed.

Lemma okA_dok a t : okA W a -> dok (defs a t) /\ allvalid (defs a t).
Proof. intros O. split; [apply (ok_dok _ _ _ (O t))|apply (ok_uns _ _ _ (O t))]. Qed.

Lemma rv_one s n t b : anode (cur s) = Some n -> okA W (cur s) ->
  exists s', hrv s t b = DOk s' /\ cur s' = cur s /\ fle (fxs s) (fxs s') /\
    forall i, bit b i -> ~ covers (ivs (defs (cur s) t)) i -> pended (fpend (fxs s')) n t i.
Proof.
  intros An Ok. destruct (okA_dok _ t Ok) as [K V].
  destruct (handleRvalue_node nm None s t b n An K V) as (s' & ds & ps & E & [R1 R2] & H).
  exists s'. split; [exact E|]. split; [exact R1|]. rewrite R2. split.
  - unfold fle. cbn. split; [lia|]. split; [apply incl_refl|]. split; intros x I; apply in_or_app; now left.
  - intros i B N. destruct (rds_pcomplete _ _ _ _ _ _ H t b i (or_introl eq_refl) B N) as (p & Ip & Sy & Bp).
    exists p. cbn [fpend]. split; [apply in_or_app; now right|]. split; [exact Sy|]. split; [|exact Bp].
    now destruct (rds_psound _ _ _ _ _ _ H p Ip).
Qed.
Lemma rvs n : forall refs s, anode (cur s) = Some n -> areach (cur s) = true -> okA W (cur s) ->
  exists s', each (note None) s refs = DOk s' /\ cur s' = cur s /\ fle (fxs s) (fxs s') /\
    forall t i, rbit refs t i -> ~ covers (ivs (defs (cur s) t)) i -> pended (fpend (fxs s')) n t i.
Proof.
  induction refs as [|[t b] refs IH]; intros s An Ar Ok; cbn [each].
  - exists s. split; [reflexivity|]. split; [reflexivity|]. split; [apply fle_refl|]. intros t i (b & [] & _).
  - unfold noteReference at 1. rewrite Ar. cbn [negb fst snd].
    destruct (rv_one s n t b An Ok) as (s1 & E1 & C1 & F1 & P1). rewrite E1. cbn [dbind].
    destruct (IH s1) as (s2 & E2 & C2 & F2 & P2); try (rewrite C1; assumption).
    exists s2. split; [exact E2|]. split; [congruence|]. split; [eapply fle_trans; eauto|].
    intros t' i (b' & [[= <- <-]|I] & B) N.
    + eapply pended_incl; [apply F2|]. apply P1; auto.
    + apply P2; [exists b'; auto|]. rewrite C1. exact N.
Qed.
Lemma drives n : forall rs s, anode (cur s) = Some n -> areach (cur s) = true -> okA W (cur s) ->
  exists s', each drhs s rs = DOk s' /\ cur s' = cur s /\ fle (fxs s) (fxs s') /\
    forall t i, rbit (flat_map seg_reads rs) t i -> ~ covers (ivs (defs (cur s) t)) i -> pended (fpend (fxs s')) n t i.
Proof.
  induction rs as [|r rs IH]; intros s An Ar Ok; cbn [each].
  - exists s. split; [reflexivity|]. split; [reflexivity|]. split; [apply fle_refl|]. intros t i (b & [] & _).
  - assert (One : exists s', drhs s r = DOk s' /\ cur s' = cur s /\ fle (fxs s) (fxs s') /\
      forall t i, rbit (seg_reads r) t i -> ~ covers (ivs (defs (cur s) t)) i -> pended (fpend (fxs s')) n t i).
    { destruct r as [[t b]|l| |]; cbn [drive_rhs seg_reads].
      - destruct (rv_one s n t b An Ok) as (s1 & E1 & C1 & F1 & P1). exists s1. split; [exact E1|]. split; [exact C1|]. split; [exact F1|].
        intros t' i (b' & [[= <- <-]|[]] & B). now apply P1.
      - now apply rvs.
      - exists s. split; [reflexivity|]. split; [reflexivity|]. split; [apply fle_refl|]. intros t i (b & [] & _).
      - rewrite An. cbn [create]. eexists. split; [reflexivity|]. split; [reflexivity|]. split.
        + unfold fle. cbn. split; [lia|]. split; [|split; [|apply incl_refl]]; intros x I; apply in_or_app; now left.
        + intros t i (b & [] & _). }
    destruct One as (s1 & E1 & C1 & F1 & P1). rewrite E1. cbn [dbind].
    destruct (IH s1) as (s2 & E2 & C2 & F2 & P2); try (rewrite C1; assumption).
    exists s2. split; [exact E2|]. split; [congruence|]. split; [eapply fle_trans; eauto|].
    intros t i (b & I & B) N. cbn [flat_map] in I. apply in_app_or in I. destruct I as [I|I].
    + eapply pended_incl; [apply F2|]. apply P1; [exists b; auto|exact N].
    + apply P2; [exists b; auto|]. rewrite C1. exact N.
Qed.

(** * Segments *)
Definition seg_done (s : st) (g : seg) : Prop := exists n, (n < fnext (fxs s))%nat /\
  (forall t i, rbit (slhs g) t i -> hasA (cur s) t i n) /\
  (forall t i, rbit (flat_map seg_reads (srhs g)) t i -> pended (fpend (fxs s)) n t i).
Record sinv (s : st) (done : list seg) : Prop := {
  si_ok : okA W (cur s);
  si_reach : areach (cur s) = true;
  si_has : forall t i m, hasA (cur s) t i m -> exists g, In g done /\ rbit (slhs g) t i;
  si_done : forall g, In g done -> seg_done s g }.

Variable gs : list seg.
Hypothesis writes : forall g t b, In g gs -> In (t, b) (slhs g) -> inW W t (lower b) (upper b).
Hypothesis apart : forall p g q g' r, gs = p ++ g :: q ++ g' :: r -> forall t i, ~ (rbit (slhs g) t i /\ rbit (slhs g') t i).
Hypothesis fresh : forall g g' t i, In g gs -> In g' gs -> rbit (flat_map seg_reads (srhs g)) t i -> ~ rbit (slhs g') t i.

Lemma run_segs : forall rest s done, gs = done ++ rest -> sinv s done ->
  exists s', each (do_seg nm (fun _ => false) None 0 true None None) s rest = DOk s' /\ sinv s' gs /\ fle (fxs s) (fxs s').
Proof.
  induction rest as [|g rest IH]; intros s done Eg [O Ar Hh Hd]; cbn [each].
  - exists s. rewrite app_nil_r in Eg. subst done. split; [reflexivity|]. split; [|apply fle_refl]. now split.
  - unfold do_seg at 1. cbn [create updateNode with_cur with_fx cur fxs acond adefs areach].
    set (n := fnext (fxs s)).
    set (f1 := FX (S n) (fnodes (fxs s) ++ [(n, KAssign 0)]) (fdeps (fxs s)) (fpend (fxs s)) (flv (fxs s))).
    assert (Ig : In g gs) by (rewrite Eg; apply in_or_app; right; now left).
    destruct (lvs (fun s x => handleLvalue true s (fst x) (snd x)) n (fun _ _ _ => eq_refl) (slhs g)
                (ST (AS (adefs (cur s)) (Some n) None (areach (cur s))) f1))
      as (s1 & E1 & F1 & O1 & N1 & R1 & H1 & H2 & H3); cbn [cur anode areach].
    { reflexivity. } { exact Ar. } { exact O. } { intros t b I. now apply (writes g). }
    cbn [cur fxs] in *.
    match goal with |- context [each _ ?x (slhs g)] => replace x with (ST (AS (adefs (cur s)) (Some n) None (areach (cur s))) f1) end.
    2: { unfold with_cur, with_fx, updateNode. cbn. reflexivity. }
    rewrite E1. cbn [dbind].
    destruct (drives n (srhs g) s1 N1 R1 O1) as (s2 & E2 & C2 & F2 & P2). rewrite E2. cbn [dbind].
    assert (Fl : fle (fxs s) (fxs s2)).
    { eapply fle_trans; [|exact F2]. rewrite F1. unfold fle, f1. cbn. split; [lia|]. split; [|split; apply incl_refl].
      intros x I. apply in_or_app. now left. }
    assert (Old : forall t i m, hasA (cur s) t i m -> ~ rbit (slhs g) t i).
    { intros t i m Q B. destruct (Hh t i m Q) as (g0 & I0 & B0). apply in_split in I0. destruct I0 as (p & q & ->).
      rewrite <- app_assoc in Eg. cbn [app] in Eg. exact (apart p g0 q g rest Eg t i (conj B0 B)). }
    assert (Hh2 : forall t i m, hasA (cur s2) t i m -> exists g0, In g0 (done ++ [g]) /\ rbit (slhs g0) t i).
    { intros t i m Q. rewrite C2 in Q. destruct (H1 t i m Q) as [[B _]|Q'].
      - exists g. split; [apply in_or_app; right; now left|exact B].
      - destruct (Hh t i m Q') as (g0 & I0 & B0). exists g0. split; [apply in_or_app; now left|exact B0]. }
    destruct (IH s2 (done ++ [g])) as (s' & E' & S' & F').
    { rewrite <- app_assoc. exact Eg. }
    { split.
      - rewrite C2. exact O1.
      - rewrite C2. exact R1.
      - exact Hh2.
      - intros g0 I0. apply in_app_or in I0. destruct I0 as [I0|[<-|[]]].
        + destruct (Hd g0 I0) as (n0 & L0 & A0 & B0). exists n0. destruct Fl as (Fl1 & _ & _ & Fl4). split; [lia|]. split.
          * intros t i B. rewrite C2. apply H3; [apply A0, B|]. eapply Old. apply A0, B.
          * intros t i B. eapply pended_incl; [exact Fl4|]. now apply B0.
        + exists n. split.
          * destruct F2 as (F2 & _). rewrite F1 in F2. unfold f1 in F2. cbn in F2. lia.
          * split; [intros t i B; rewrite C2; now apply H2|].
            intros t i B. apply P2; [exact B|]. intros Cv.
            assert (X : exists m, hasA (cur s1) t i m).
            { apply (covers_has (defs (cur s1) t) i); [apply (ok_uns _ _ _ (O1 t))|apply (ok_ne _ _ _ (O1 t))|exact Cv]. }
            destruct X as (m & X). rewrite <- C2 in X. destruct (Hh2 t i m X) as (g0 & I0 & B0).
            apply (fresh g g0 t i Ig); auto. rewrite Eg. apply in_app_or in I0. apply in_or_app. destruct I0 as [I0|[<-|[]]]; [now left|right; now left]. }
    exists s'. split; [exact E'|]. split; [exact S'|]. eapply fle_trans; eauto.
Qed.

Lemma start_inv n0 : sinv (start n0) [].
Proof.
  split; cbn.
  - intros sy. unfold defs. cbn. destruct sy; apply okd_empty.
  - reflexivity.
  - intros t i m (x & l & I & _). unfold defs in I. cbn in I. destruct t; destruct I.
  - intros g [].
Qed.
Lemma run_aligned n0 : exists s', exec nm (fun _ => false) None (start n0) (SAligned 0 true gs) = DOk s' /\ sinv s' gs /\
  fle (fxs (start n0)) (fxs s').
Proof. cbn [exec]. unfold do_aligned. apply (run_segs gs (start n0) [] eq_refl), start_inv. Qed.
End Run.

(** The whole assignment at once is one segment. *)
Lemma run_whole nm W n0 lhs rhs : aligned_writes W -> (forall t b, In (t, b) lhs -> inW W t (lower b) (upper b)) ->
  (forall t i, rbit rhs t i -> ~ rbit lhs t i) ->
  exists s', exec nm (fun _ => false) None (start n0) (SLegacy 0 true lhs rhs) = DOk s' /\
    sinv W s' [M_DFA.Seg lhs [ROpaque rhs]] /\ fle (fxs (start n0)) (fxs s').
Proof.
  intros A Hw Fr.
  destruct (run_aligned nm W A [M_DFA.Seg lhs [ROpaque rhs]]) with (n0 := n0) as (s' & E & Si & F).
  - intros g t b [<-|[]]. cbn. apply Hw.
  - intros p g q g' r Q. exfalso. apply (f_equal (@length _)) in Q. rewrite !app_length in Q. cbn in Q. rewrite app_length in Q. cbn in Q. lia.
  - intros g g' t i [<-|[]] [<-|[]]. cbn. rewrite app_nil_r. apply Fr.
  - exists s'. split; [|auto]. cbn [exec] in *. unfold do_legacy, do_aligned in *. cbn [each] in E. unfold do_seg in E.
    cbn [start cur fxs create anode acond topState with_cur with_fx updateNode adefs areach fnext fnodes fdeps fpend flv emit slhs srhs] in *.
    destruct (lvs W A (noteReference nm (fun _ => false) None (Some true)) n0) with (refs := lhs)
       (s := ST (AS [] (Some n0) None true) (FX (S n0) ([] ++ [(n0, KAssign 0)]) [] [] [])) as (s1 & E1 & F1 & O1 & N1 & R1 & _).
    { intros s x Ar. unfold noteReference. now rewrite Ar. }
    { reflexivity. } { reflexivity. } { apply (si_ok _ _ _ (start_inv W n0)). } { exact Hw. }
    destruct (lvs W A (fun s x => handleLvalue true s (fst x) (snd x)) n0) with (refs := lhs)
       (s := ST (AS [] (Some n0) None true) (FX (S n0) ([] ++ [(n0, KAssign 0)]) [] [] [])) as (s2 & E2 & _).
    { reflexivity. } { reflexivity. } { reflexivity. } { apply (si_ok _ _ _ (start_inv W n0)). } { exact Hw. }
    assert (Q : forall f l s, (forall s x, areach (cur s) = true -> f s x = handleLvalue true s (fst x) (snd x)) ->
      areach (cur s) = true -> each f s l = each (fun s x => handleLvalue true s (fst x) (snd x)) s l).
    { intros f l. induction l as [|x l IHl]; intros s Hf Ar; [reflexivity|]. cbn [each]. rewrite (Hf s x Ar).
      destruct (handleLvalue true s (fst x) (snd x)) as [s3|] eqn:X; [|reflexivity]. cbn [dbind]. apply IHl; [exact Hf|].
      unfold handleLvalue in X. destruct (anode (cur s)); [|discriminate]. unfold trackDrivers in X.
      destruct (addDrivers _ _ _ _); [|discriminate]. cbn [dbind] in X. injection X as <-. exact Ar. }
    unfold with_cur, with_fx in *. cbn [cur fxs] in *.
    rewrite (Q (noteReference nm (fun _ => false) None (Some true))); [|intros s x Ar; unfold noteReference; now rewrite Ar|reflexivity].
    destruct (each (fun s x => handleLvalue true s (fst x) (snd x)) _ lhs) as [s3|]; [|discriminate]. cbn [dbind each drive_rhs] in *.
    destruct (each (noteReference nm (fun _ => false) None None) s3 rhs) as [s4|]; [|discriminate]. exact E.
Qed.
