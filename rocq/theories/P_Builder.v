(** Proofs about the builder. *)
From Verif Require Import Base M_Graph M_Range M_Netlist M_Annot M_Interval M_Heap M_Drivers M_Pending M_DFA M_Builder
  S_Interval S_Drivers S_DFA S_Builder P_Interval P_Heap P_Drivers P_DriversX P_DFA P_DFA2.
Local Open Scope Z_scope.

(** * Sensitivity *)
Definition sig_of (e : edgekind * option nat) : list (nat * edgekind) :=
  match snd e with Some s => [(s, fst e)] | None => [] end.
Lemma ek_none k : edgekind_eqb k EKNone = true <-> k = EKNone.
Proof. destruct k; cbn; split; congruence. Qed.

Lemma recordEvents_spec : forall l c acc,
  exists c' out, recordEvents (c, acc) (map (fun e => EvSignal (fst e) (snd e)) l) = Some (c', out) /\
    (c' = false <-> c = false /\ forall e, In e l -> edge_event e) /\
    ((forall e, In e l -> edge_event e) -> out = acc ++ flat_map sig_of l).
Proof.
  induction l as [|[k sy] l IH]; intros c acc; cbn [map recordEvents fst snd].
  - exists c, acc. split; [reflexivity|]. split; [|intros _; cbn; now rewrite app_nil_r].
    split; [intros ->; split; [reflexivity|intros e []]|tauto].
  - unfold recordEvent. cbn [fst snd]. destruct (edgekind_eqb k EKNone) eqn:K.
    + apply ek_none in K. destruct (IH true acc) as (c' & out & E & H1 & H2). exists c', out. split; [exact E|]. split.
      * rewrite H1. split; [intros [H _]; discriminate|]. intros [_ H]. exfalso. apply (H (k, sy)); [now left|exact K].
      * intros H. exfalso. apply (H (k, sy)); [now left|exact K].
    + assert (K' : k <> EKNone) by (intros ->; discriminate).
      assert (Q : forall P : Prop, (P /\ (forall e, In e l -> edge_event e)) <-> (P /\ forall e, In e ((k, sy) :: l) -> edge_event e)).
      { intros P. split; intros [A B]; (split; [exact A|]).
        - intros e [<-|I]; [exact K'|auto].
        - intros e I. apply B. now right. }
      destruct sy as [s|].
      * destruct (IH c (acc ++ [(s, k)])) as (c' & out & E & H1 & H2). exists c', out. split; [exact E|]. split.
        -- rewrite H1. apply Q.
        -- intros H. rewrite H2; [|intros e I; apply H; now right]. cbn. now rewrite <- app_assoc.
      * destruct (IH c acc) as (c' & out & E & H1 & H2). exists c', out. split; [exact E|]. split.
        -- rewrite H1. apply Q.
        -- intros H. rewrite H2; [|intros e I; apply H; now right]. reflexivity.
Qed.

Lemma sensitivity_spec pk t l : always pk -> is_events t l ->
  exists out, collectSensitivity pk (BTimed t) = Some out /\
    ((forall e, In e l -> edge_event e) -> out = flat_map sig_of l) /\
    (~ (forall e, In e l -> edge_event e) -> out = []).
Proof.
  intros P E. assert (C : collectSensitivity pk (BTimed t) =
    match match t with
          | TSignal k sy => recordEvents (false, []) [EvSignal k sy]
          | TList l => recordEvents (false, []) l
          | TOther => Some (false, [])
          end with
    | None => None | Some (true, _) => Some [] | Some (false, l) => Some l end).
  { destruct P as [-> | ->], t; reflexivity. }
  rewrite C. clear C.
  assert (X : exists c' out, match t with
          | TSignal k sy => recordEvents (false, []) [EvSignal k sy]
          | TList l => recordEvents (false, []) l
          | TOther => Some (false, [])
          end = Some (c', out) /\ (c' = false <-> forall e, In e l -> edge_event e) /\
          ((forall e, In e l -> edge_event e) -> out = flat_map sig_of l)).
  { destruct E as [k sy|l].
    - destruct (recordEvents_spec [(k, sy)] false []) as (c' & out & E & H1 & H2). exists c', out. split; [exact E|].
      split; [rewrite H1; tauto|exact H2].
    - destruct (recordEvents_spec l false []) as (c' & out & E & H1 & H2). exists c', out. split; [exact E|].
      split; [rewrite H1; tauto|exact H2]. }
  destruct X as (c' & out & -> & H1 & H2). destruct c'.
  - exists []. split; [reflexivity|]. split; [|reflexivity]. intros H. apply H1 in H. discriminate.
  - exists out. split; [reflexivity|]. split; [exact H2|]. intros H. exfalso. apply H, H1. reflexivity.
Qed.

(** * Lookups in histories *)
Lemma bit_lu b i : bit b i <-> lower b <= i <= upper b.
Proof. reflexivity. Qed.
Lemma bits_dis a b : (forall i, ~ (bit a i /\ bit b i)) -> dis a b.
Proof.
  intros H. unfold dis. destruct (Z_lt_le_dec (upper a) (lower b)); [auto|].
  destruct (Z_lt_le_dec (upper b) (lower a)); [auto|]. exfalso.
  pose proof (lower_le_upper a). pose proof (lower_le_upper b).
  apply (H (Z.max (lower a) (lower b))). rewrite ?bit_lu. lia.
Qed.
Lemma apart_pairs s ops : apart_nodes ops -> ForallOrdPairs (fun a b => dis (fst a) (fst b)) (ops_of s ops).
Proof.
  intros H. induction ops as [|[[s' b] n] ops IH]; [constructor|].
  assert (H' : apart_nodes ops).
  { intros p s0 b0 n0 q b' n' r E. apply (H ((s', b, n) :: p) s0 b0 n0 q b' n' r). now rewrite E. }
  unfold ops_of. cbn [filter fst snd]. destruct (Nat.eqb_spec s' s) as [->|D]; [|now apply IH].
  cbn [map fst snd]. constructor; [|now apply IH].
  apply Forall_forall. intros [b' n'] I. cbn [fst]. apply in_map_iff in I.
  destruct I as ([[s1 b1] n1] & E & I). cbn [fst snd] in E. inversion E; subst.
  apply filter_In in I. destruct I as [I Q]. cbn [fst] in Q. apply Nat.eqb_eq in Q. subst s1.
  apply in_split in I. destruct I as (l1 & l2 & ->). apply bits_dis. apply (H [] s b n l1 b' n' l2). reflexivity.
Qed.
Lemma ops_of_in s ops b n : In (b, n) (ops_of s ops) <-> In (s, b, n) ops.
Proof.
  unfold ops_of. rewrite in_map_iff. split.
  - intros ([[s1 b1] n1] & E & I). apply filter_In in I. cbn [fst snd] in *.
    destruct I as [I Q]. apply Nat.eqb_eq in Q. inversion E; subst. exact I.
  - intros I. exists (s, b, n). split; [reflexivity|]. apply filter_In. cbn. now rewrite Nat.eqb_refl.
Qed.

(** The entries of a symbol after a history. *)
Lemma history_map ops s : apart_nodes ops ->
  exists m, (vt_run vt_empty ops s = Some m \/ (vt_run vt_empty ops s = None /\ m = [])) /\ wf m /\
    forall x, In x m <-> exists b, In (s, b, ival x) ops /\ ilo x = lower b /\ ihi x = upper b.
Proof.
  intros D. pose proof (apart_pairs s ops D) as P. pose proof (vt_run_sym s ops vt_empty) as E.
  exists (ins_all (ops_of s ops) []). split; [|split].
  - destruct (ops_of s ops); [right|left]; rewrite E; [split; reflexivity|reflexivity].
  - apply wf_ins_all; [apply wf_nil|exact P|]. intros o y _ [].
  - intros x. rewrite in_ins_all. split.
    + intros [[]|([b n] & I & ->)]. cbn [fst snd ilo ihi ival]. exists b. split; [now apply ops_of_in|auto].
    + intros (b & I & L & U). right. exists (b, ival x). split; [now apply ops_of_in|]. cbn [fst snd].
      destruct x; cbn in *. now subst.
Qed.

Lemma lookup_history ops s b n : apart_nodes ops -> rleft b <= rright b ->
  (vt_lookup (vt_run vt_empty ops) s b = Some n <->
   exists b', In (s, b', n) ops /\ lower b' = rleft b /\ upper b' = rright b).
Proof.
  intros D A. destruct (history_map ops s D) as (m & [E|[E ->]] & W & M).
  - rewrite (vt_lookup_wf _ s m b n E W A), M. cbn [ival ilo ihi]. split; intros (b' & H); exists b'; intuition auto.
  - split.
    + unfold vt_lookup. rewrite E. discriminate.
    + intros (b' & I & L & U). exfalso. apply (M (IV (rleft b) (rright b) n)). exists b'. auto.
Qed.

(** * Output ports *)
Section Symbols.
Variable sykind : nat -> skind.
Variable nm : nat -> str.
Variable backrefs : nat -> list nat.
Variable width : nat -> Z.
Variable behind : nat -> nat -> list ipath.

Lemma contains_bits a b : contains a b = true <-> forall i, bit b i -> bit a i.
Proof.
  setoid_rewrite bit_lu. unfold contains. rewrite andb_true_iff, !Z.leb_le. pose proof (lower_le_upper b). split.
  - intros C i. lia.
  - intros H'. pose proof (H' (lower b)). pose proof (H' (upper b)). lia.
Qed.

(** The port node that is found. *)
Lemma port_found ops p b : apart_nodes ops -> rleft b <= rright b ->
  forall n, (match vt_lookup (vt_run vt_empty ops) p b with Some n => Some n
             | None => first_containing (vt_run vt_empty ops) p b end) = Some n <->
    exists b', In (p, b', n) ops /\ forall i, bit b i -> bit b' i.
Proof.
  intros D A n.
  assert (Lb : lower b = rleft b) by (unfold lower; lia). assert (Ub : upper b = rright b) by (unfold upper; lia).
  destruct (history_map ops p D) as (m & E & W & M).
  assert (U : forall b1 n1 b2 n2, In (p, b1, n1) ops -> In (p, b2, n2) ops -> (forall i, bit b i -> bit b1 i) ->
     (forall i, bit b i -> bit b2 i) -> n1 = n2).
  { intros b1 n1 b2 n2 I1 I2 H1 H2.
    assert (J1 : In (IV (lower b1) (upper b1) n1) m) by (apply M; exists b1; auto).
    assert (J2 : In (IV (lower b2) (upper b2) n2) m) by (apply M; exists b2; auto).
    apply wf_spec in W. destruct W as [_ Dm].
    assert (B0 : bit b (lower b)) by (rewrite ?bit_lu; pose proof (lower_le_upper b); lia).
    pose proof (H1 _ B0) as B1. pose proof (H2 _ B0) as B2. rewrite bit_lu in B1, B2.
    apply in_split in J1. destruct J1 as (l1 & l2 & ->). apply in_app_or in J2.
    destruct J2 as [J2|[J2|J2]].
    - apply in_split in J2. destruct J2 as (l3 & l4 & ->). exfalso.
      specialize (Dm l3 (IV (lower b2) (upper b2) n2) l4 (IV (lower b1) (upper b1) n1) l2).
      rewrite <- app_assoc in Dm. specialize (Dm eq_refl). cbn in Dm. lia.
    - now injection J2.
    - apply in_split in J2. destruct J2 as (l3 & l4 & ->). exfalso.
      specialize (Dm l1 (IV (lower b1) (upper b1) n1) l3 (IV (lower b2) (upper b2) n2) l4 eq_refl). cbn in Dm. lia. }
  assert (F : forall n', first_containing (vt_run vt_empty ops) p b = Some n' ->
            exists b', In (p, b', n') ops /\ forall i, bit b i -> bit b' i).
  { unfold first_containing. destruct E as [E|[E _]]; rewrite E; [|discriminate]. intros n' H.
    destruct (find _ m) as [x|] eqn:Fx; [|discriminate]. cbn in H. injection H as <-. apply find_some in Fx.
    destruct Fx as [I C]. apply M in I. destruct I as (b' & I & L & Hu). exists b'. split; [exact I|].
    rewrite contains_bits in C. intros i Bi. specialize (C i Bi). rewrite ?bit_lu in *. rewrite L, Hu in C.
    pose proof (lower_le_upper b'). rewrite lower_range, upper_range in C by lia. exact C. }
  assert (F' : (exists n' b', In (p, b', n') ops /\ forall i, bit b i -> bit b' i) ->
            first_containing (vt_run vt_empty ops) p b <> None).
  { intros (n' & b' & I & H). unfold first_containing.
    assert (J : In (IV (lower b') (upper b') n') m) by (apply M; exists b'; auto).
    destruct E as [E|[_ ->]]; [|destruct J]. rewrite E. destruct (find _ m) as [x|] eqn:Fx; [discriminate|].
    exfalso. pose proof (find_none _ _ Fx _ J) as Q. cbn [ilo ihi] in Q.
    assert (C : contains (Range (lower b') (upper b')) b = true); [|congruence].
    apply contains_bits. intros i Bi. specialize (H i Bi). rewrite ?bit_lu in *. pose proof (lower_le_upper b').
    now rewrite lower_range, upper_range by lia. }
  destruct (vt_lookup (vt_run vt_empty ops) p b) as [n1|] eqn:Lk.
  - apply (lookup_history ops p b n1 D A) in Lk. destruct Lk as (b1 & I1 & Q1 & Q2).
    assert (H1 : forall i, bit b i -> bit b1 i) by (intros i; rewrite ?bit_lu; lia). split.
    + intros [= <-]. eauto.
    + intros (b' & I & H). f_equal. eapply U; eauto.
  - split; [apply F|]. intros (b' & I & H). destruct (first_containing _ p b) as [n2|] eqn:Q.
    + destruct (F n2 eq_refl) as (b2 & I2 & H2). f_equal. eapply U; eauto.
    + exfalso. apply F'; [eauto|reflexivity].
Qed.

Lemma hookup_exact ops sy p b dl : backrefs sy = [p] -> apart_nodes ops -> rleft b <= rright b ->
  forall x, In x (hookupOutputPort nm backrefs (vt_run vt_empty ops) sy b dl) <->
    exists d n b', x = DDep d n (Some (nm sy)) b EKNone /\ In d dl /\ In (p, b', n) ops /\ forall i, bit b i -> bit b' i.
Proof.
  intros P D A x. unfold hookupOutputPort. rewrite P. pose proof (port_found ops p b D A) as F.
  destruct (match vt_lookup (vt_run vt_empty ops) p b with Some n => Some n | None => _ end) as [pn|].
  - rewrite in_map_iff. split.
    + intros (d & <- & I). destruct (proj1 (F pn) eq_refl) as (b' & J & H). exists d, pn, b'. auto.
    + intros (d & n & b' & -> & I & J & H). exists d. split; [|exact I].
      assert (Q : Some pn = Some n) by (apply F; exists b'; auto). congruence.
  - split; [intros []|]. intros (d & n & b' & -> & I & J & H).
    assert (Q : @None nat = Some n) by (apply F; exists b'; auto). discriminate.
Qed.

(** * Registers *)
Definition entry := (nat * range * dlist)%type.
Definition listed (d : dmap) (x : iv nat) : dlist := match get (lists d) (ival x) with Some l => l | None => [] end.
Definition entries (blk : list (nat * dmap)) : list entry :=
  flat_map (fun sd => map (fun x => (fst sd, Range (ilo x) (ihi x), listed (snd sd) x)) (ivs (snd sd))) blk.

Definition state_step (sens : list (nat * edgekind)) (s : bld) (e : entry) : bld :=
  let '(sy, b, dl) := e in
  let '(s1, n) := createState s sy b in
  let s3 := bqueue (bemit s1 (map (fun k => DDep k n (Some (nm sy)) b EKNone) dl)) (clocks nm width sens n) in
  let s4 := bemit s3 (hookupOutputPort nm backrefs (bvt s3) sy b [n]) in
  bemit s4 (interfaceEdges sykind nm behind (bvt s4) sy b dl).

Notation mergeD := (mergeDrivers sykind nm backrefs width behind).
Notation mergeIs := (mergeIntervals sykind nm backrefs width behind).

Lemma seq_intervals sens sy d : sens <> [] -> allvalid d -> forall its s, (forall x, In x its -> In x (ivs d)) ->
  mergeIs sens s sy d its =
  DOk (fold_left (state_step sens) (map (fun x => (sy, Range (ilo x) (ihi x), listed d x)) its) s).
Proof.
  intros Ne V. induction its as [|x its IH]; intros s H; cbn [mergeIntervals]; [reflexivity|].
  unfold mergeInterval. unfold getDriverList. pose proof (V x (H x (or_introl eq_refl))) as G.
  cbn [map fold_left]. unfold listed at 2. destruct (get (lists d) (ival x)) as [l|] eqn:Gx; [|congruence].
  cbn [dbind]. destruct sens as [|e0 sens']; [congruence|]. cbn [dbind createState register].
  rewrite IH by (intros y I; apply H; now right). reflexivity.
Qed.
Lemma seq_drivers sens : sens <> [] -> forall blk s, (forall sy d, In (sy, d) blk -> allvalid d) ->
  mergeD sens s blk = DOk (fold_left (state_step sens) (entries blk) s).
Proof.
  intros Ne. induction blk as [|[sy d] blk IH]; intros s V; cbn [mergeDrivers]; [reflexivity|].
  rewrite (seq_intervals sens sy d Ne (V sy d (or_introl eq_refl)) (ivs d) s) by auto. cbn [dbind].
  rewrite IH by (intros sy' d' I; apply (V sy' d'); now right).
  unfold entries. cbn [flat_map fst snd]. now rewrite fold_left_app.
Qed.

Fixpoint state_ops (n : nat) (es : list entry) : list (nat * range * nat) :=
  match es with
  | [] => []
  | (sy, b, _) :: r => (sy, b, n) :: state_ops (S n) r
  end.
Lemma step_fields sens s sy b dl :
  let s' := state_step sens s (sy, b, dl) in
  bnext s' = S (bnext s) /\ bnodes s' = bnodes s ++ [(bnext s, BState sy b)] /\
  bvt s' = vt_insert (bvt s) sy b (bnext s) /\ bdm s' = bdm s /\
  (exists ds, bdeps s' = bdeps s ++ map (fun k => DDep k (bnext s) (Some (nm sy)) b EKNone) dl ++ ds) /\
  bpend s' = bpend s ++ clocks nm width sens (bnext s).
Proof.
  cbn. repeat split. exists (hookupOutputPort nm backrefs (vt_insert (bvt s) sy b (bnext s)) sy b [bnext s] ++
    interfaceEdges sykind nm behind (vt_insert (bvt s) sy b (bnext s)) sy b dl). now rewrite <- !app_assoc.
Qed.

Lemma fold_fields sens : forall es s, let s' := fold_left (state_step sens) es s in
  bnext s' = (bnext s + length es)%nat /\
  bnodes s' = bnodes s ++ map (fun o => (snd o, BState (fst (fst o)) (snd (fst o)))) (state_ops (bnext s) es) /\
  bvt s' = vt_run (bvt s) (state_ops (bnext s) es) /\ bdm s' = bdm s /\
  (exists ds, bdeps s' = bdeps s ++ ds) /\ (exists ps, bpend s' = bpend s ++ ps) /\
  forall pre sy b dl post, es = pre ++ (sy, b, dl) :: post ->
    (forall k, In k dl -> In (DDep k (bnext s + length pre)%nat (Some (nm sy)) b EKNone) (bdeps s')) /\
    (forall p, In p (clocks nm width sens (bnext s + length pre)%nat) -> In p (bpend s')).
Proof.
  induction es as [|[[sy b] dl] es IH]; intros s; cbn zeta.
  - cbn. rewrite Nat.add_0_r, app_nil_r. repeat (split; [reflexivity|]). split; [exists []; now rewrite app_nil_r|].
    split; [exists []; now rewrite app_nil_r|]. intros pre sy b dl post E. destruct pre; discriminate.
  - cbn [fold_left]. destruct (step_fields sens s sy b dl) as (F1 & F2 & F3 & F4 & (ds1 & F5) & F6).
    destruct (IH (state_step sens s (sy, b, dl))) as (G1 & G2 & G3 & G4 & (ds2 & G5) & (ps2 & G6) & G7).
    set (s1 := state_step sens s (sy, b, dl)) in *. set (s2 := fold_left (state_step sens) es s1) in *.
    rewrite F1 in *. cbn [state_ops length map fst snd].
    split; [rewrite G1; lia|]. split; [rewrite G2, F2, <- app_assoc; reflexivity|].
    split; [rewrite G3, F3; reflexivity|]. split; [now rewrite G4|].
    split; [rewrite G5, F5, <- app_assoc; eauto|]. split; [rewrite G6, F6, <- app_assoc; eauto|].
    intros pre sy' b' dl' post E. destruct pre as [|e0 pre]; cbn [app] in E; injection E.
    + intros -> <- <- <-. cbn [length]. rewrite Nat.add_0_r. split.
      * intros k I. rewrite G5, F5. rewrite !in_app_iff. left. right. left. apply in_map_iff. eauto.
      * intros p I. rewrite G6, F6. rewrite !in_app_iff. left. right. exact I.
    + intros -> _. destruct (G7 pre sy' b' dl' post eq_refl) as [H1 H2].
      replace (bnext s + length (e0 :: pre))%nat with (S (bnext s) + length pre)%nat by (cbn; lia). auto.
Qed.

Lemma state_ops_nth : forall es n pre sy b dl post, es = pre ++ (sy, b, dl) :: post ->
  In (sy, b, (n + length pre)%nat) (state_ops n es).
Proof.
  induction es as [|[[sy0 b0] dl0] es IH]; intros n pre sy b dl post E; [destruct pre; discriminate|].
  cbn [state_ops]. destruct pre as [|e0 pre]; cbn [app] in E; injection E.
  - intros _ <- <- <-. left. cbn. now rewrite Nat.add_0_r.
  - intros -> _. right. replace (n + length (e0 :: pre))%nat with (S n + length pre)%nat by (cbn; lia). eauto.
Qed.
Lemma state_ops_app : forall a n b, state_ops n (a ++ b) = state_ops n a ++ state_ops (n + length a) b.
Proof.
  induction a as [|[[sy b0] dl] a IH]; intros n b; cbn; [now rewrite Nat.add_0_r|]. rewrite IH. now rewrite Nat.add_succ_r.
Qed.
Lemma state_ops_in : forall es n sy b m, In (sy, b, m) (state_ops n es) -> exists dl, In (sy, b, dl) es.
Proof.
  induction es as [|[[sy0 b0] dl0] es IH]; intros n sy b m; [easy|]. cbn. intros [[= <- <- <-]|I]; [eauto|].
  destruct (IH _ _ _ _ I); eauto.
Qed.

(** The registers of one symbol do not share bits. *)
Lemma entries_sym blk sy b dl : In (sy, b, dl) (entries blk) -> exists d x, In (sy, d) blk /\ In x (ivs d) /\
  b = Range (ilo x) (ihi x) /\ dl = listed d x.
Proof.
  unfold entries. rewrite in_flat_map. intros ([sy' d] & I & J). cbn [fst snd] in J. apply in_map_iff in J.
  destruct J as (x & E & J). injection E as -> <- <-. exists d, x. auto.
Qed.
Lemma state_ops_split : forall es n p s b m q s' b' m' r, state_ops n es = p ++ (s, b, m) :: q ++ (s', b', m') :: r ->
  exists e1 dl e2 dl' e3, es = e1 ++ (s, b, dl) :: e2 ++ (s', b', dl') :: e3.
Proof.
  assert (One : forall es n p s b m q, state_ops n es = p ++ (s, b, m) :: q ->
    exists e1 dl e2 n', es = e1 ++ (s, b, dl) :: e2 /\ state_ops n' e2 = q).
  { induction es as [|[[sy0 b0] dl0] es IH]; intros n p s b m q E; [destruct p; discriminate|].
    cbn in E. destruct p as [|x p]; cbn [app] in E; injection E.
    - intros <- _ -> ->. exists [], dl0, es, (S n). auto.
    - intros E' _. destruct (IH _ _ _ _ _ _ E') as (e1 & dl & e2 & n' & -> & H).
      exists ((sy0, b0, dl0) :: e1), dl, e2, n'. auto. }
  intros es n p s b m q s' b' m' r E. destruct (One _ _ _ _ _ _ _ E) as (e1 & dl & e2 & n' & -> & E2).
  destruct (One _ _ _ _ _ _ _ E2) as (e3 & dl' & e4 & n'' & -> & _). exists e1, dl, e3, dl', e4. reflexivity.
Qed.
Lemma entries_apart : forall blk e1 sy b dl e2 b' dl' e3, NoDup (map fst blk) -> (forall s d, In (s, d) blk -> wf (ivs d)) ->
  entries blk = e1 ++ (sy, b, dl) :: e2 ++ (sy, b', dl') :: e3 -> forall i, ~ (bit b i /\ bit b' i).
Proof.
  induction blk as [|[s d] blk IH]; intros e1 sy b dl e2 b' dl' e3 N W E; [destruct e1; discriminate|].
  cbn [map fst] in N. inversion N as [|? ? N1 N2]; subst.
  unfold entries in E. cbn [flat_map fst snd] in E. fold (entries blk) in E.
  assert (Wd : wf (ivs d)) by (apply (W s d); now left).
  assert (Out : forall sy' b0 dl0, In (sy', b0, dl0) (entries blk) -> sy' <> s).
  { intros sy' b0 dl0 I ->. apply N1. apply entries_sym in I. destruct I as (d' & x & I & _).
    apply in_map_iff. exists (s, d'). auto. }
  assert (In1 : forall sy' b0 dl0, In (sy', b0, dl0) (map (fun x => (s, Range (ilo x) (ihi x), listed d x)) (ivs d)) -> sy' = s).
  { intros sy' b0 dl0 I. apply in_map_iff in I. destruct I as (x & Q & _). congruence. }
  apply app_eq_app in E. destruct E as (l & [[E1 E2]|[E1 E2]]).
  - destruct l as [|e l].
    + cbn [app] in E2. apply (IH [] sy b dl e2 b' dl' e3); auto. intros s' d' I. apply (W s' d'). now right.
    + cbn [app] in E2. injection E2. intros E3 <-. clear E2.
      symmetry in E3. apply app_eq_app in E3. destruct E3 as (l' & [[E3 E4]|[E3 E4]]).
      * destruct l' as [|e' l'].
        -- cbn [app] in E4. exfalso. apply (Out sy b' dl'); [rewrite <- E4; now left|].
           apply (In1 sy b dl). rewrite E1. apply in_or_app. right. now left.
        -- cbn [app] in E4. injection E4. intros _ <-. rewrite E3 in E1.
           apply map_eq_app in E1. destruct E1 as (x1 & x2 & Hx & <- & E1).
           apply map_eq_cons in E1. destruct E1 as (y & x3 & -> & Ey & E1).
           apply map_eq_app in E1. destruct E1 as (x4 & x5 & -> & <- & E1).
           apply map_eq_cons in E1. destruct E1 as (z & x6 & -> & Ez & E1).
           apply wf_spec in Wd. destruct Wd as [Nd Dd]. specialize (Dd _ _ _ _ _ Hx).
           injection Ey as _ <- _. injection Ez as _ <- _.
           assert (ilo y <= ihi y) by (apply Nd; rewrite Hx; apply in_or_app; right; now left).
           assert (ilo z <= ihi z).
           { apply Nd. rewrite Hx. apply in_or_app. right. right. apply in_or_app. right. now left. }
           intros i [B1 B2]. rewrite ?bit_lu in *. rewrite lower_range, upper_range in * by lia. lia.
      * exfalso. apply (Out sy b' dl').
        -- rewrite E4. apply in_or_app. right. now left.
        -- apply (In1 sy b dl). rewrite E1. apply in_or_app. right. now left.
  - apply (IH l sy b dl e2 b' dl' e3); auto. intros s' d' I. apply (W s' d'). now right.
Qed.

Lemma states_apart blk n : NoDup (map fst blk) -> (forall s d, In (s, d) blk -> wf (ivs d)) -> apart_nodes (state_ops n (entries blk)).
Proof.
  intros N W p s b m q b' m' r E. destruct (state_ops_split _ _ _ _ _ _ _ _ _ _ _ E) as (e1 & dl & e2 & dl' & e3 & E').
  exact (entries_apart _ _ _ _ _ _ _ _ _ N W E').
Qed.

Lemma vt_run_app t a b : vt_run t (a ++ b) = vt_run (vt_run t a) b.
Proof. unfold vt_run. now rewrite fold_left_app. Qed.
Lemma vt_run_fresh t ops s : t s = None -> vt_run t ops s = vt_run vt_empty ops s.
Proof. intros E. rewrite !vt_run_sym, E. reflexivity. Qed.
Lemma lookup_ext t t' s b : t s = t' s -> vt_lookup t s b = vt_lookup t' s b.
Proof. intros E. unfold vt_lookup. now rewrite E. Qed.

Lemma built_ok d : built d -> dok d /\ allvalid d.
Proof.
  intros [(h & E) D]. split; [|now apply allvalid_spec]. destruct (run_cov h dm_empty dok_empty) as [Q|(d' & Q & K & _)]; congruence.
Qed.

(** * Combinational blocks *)
Lemma drives_has d i n : drives d i n <-> has d i n.
Proof. unfold drives, has, inside. split; intros (x & l & H); exists x, l; tauto. Qed.

Definition gok (s : bld) : Prop := forall sy d, bdm s sy = Some d -> dok d /\ allvalid d.
Lemma comb_interval s sy d x l : gok s -> get (lists d) (ival x) = Some l -> ilo x <= ihi x ->
  exists s', mergeInterval sykind nm backrefs width behind [] s sy d x = DOk s' /\ gok s' /\
    bnext s' = bnext s /\ bnodes s' = bnodes s /\ bvt s' = bvt s /\ bpend s' = bpend s /\
    (exists ds, bdeps s' = bdeps s ++ ds) /\
    (forall sy' i n, drives_global (bdm s) sy' i n -> drives_global (bdm s') sy' i n) /\
    (forall sy', sy' <> sy -> bdm s' sy' = bdm s sy') /\
    (forall i n, ilo x <= i <= ihi x -> In n l -> drives_global (bdm s') sy i n).
Proof.
  intros G El Lx. unfold mergeInterval, getDriverList. rewrite El. cbn [dbind]. unfold baddDrivers.
  set (d0 := match bdm s sy with Some d => d | None => dm_empty end).
  assert (K0 : dok d0 /\ allvalid d0).
  { unfold d0. destruct (bdm s sy) as [d'|] eqn:E; [exact (G sy d' E)|]. split; [apply dok_empty|intros y []]. }
  destruct K0 as [K0 V0].
  destruct (run_merge [(Range (ilo x) (ihi x), l, true)] d0 K0 V0) as (d1 & E & K1 & V1 & H1 & H2).
  { intros b' dl' m [[= <- <- <-]|[]]. reflexivity. }
  cbn [run_calls] in E. destruct (addDrivers d0 (Range (ilo x) (ihi x)) l true) as [d2|]; [|discriminate].
  cbn [dbind] in *. injection E as ->. eexists. split; [reflexivity|]. split; [|cbn; split; [reflexivity|]; split; [reflexivity|]; split; [reflexivity|];
    split; [reflexivity|]; split; [|split; [|split]]].
  - intros sy' d' Q. cbn in Q. unfold upd in Q. destruct (Nat.eqb sy' sy); [injection Q as <-; auto|eauto].
  - rewrite <- app_assoc. eauto.
  - intros sy' i n (d' & Q & H). unfold drives_global, upd. destruct (Nat.eqb_spec sy' sy) as [->|]; [|eauto].
    exists d1. split; [reflexivity|]. apply drives_has, H1, drives_has. unfold d0. now rewrite Q.
  - intros sy' Ne. unfold upd. destruct (Nat.eqb_spec sy' sy); congruence.
  - intros i n Bi I. exists d1. unfold upd. rewrite Nat.eqb_refl. split; [reflexivity|]. apply drives_has.
    apply (H2 (Range (ilo x) (ihi x)) l true); auto; [now left|]. rewrite lower_range, upper_range; lia.
Qed.

Lemma comb_intervals sy d : allvalid d -> forall its s, gok s -> (forall x, In x its -> In x (ivs d) /\ ilo x <= ihi x) ->
  exists s', mergeIs [] s sy d its = DOk s' /\ gok s' /\
    bnext s' = bnext s /\ bnodes s' = bnodes s /\ bvt s' = bvt s /\ bpend s' = bpend s /\
    (exists ds, bdeps s' = bdeps s ++ ds) /\
    (forall sy' i n, drives_global (bdm s) sy' i n -> drives_global (bdm s') sy' i n) /\
    (forall sy', sy' <> sy -> bdm s' sy' = bdm s sy') /\
    (forall x l i n, In x its -> get (lists d) (ival x) = Some l -> ilo x <= i <= ihi x -> In n l -> drives_global (bdm s') sy i n).
Proof.
  intros V. induction its as [|x its IH]; intros s G H; cbn [mergeIntervals].
  - exists s. split; [reflexivity|]. split; [exact G|]. repeat (split; [reflexivity|]).
    split; [exists []; now rewrite app_nil_r|]. split; [auto|]. split; [auto|]. intros x l i n [].
  - destruct (H x (or_introl eq_refl)) as [Ix Lx]. destruct (get (lists d) (ival x)) as [l|] eqn:El; [|destruct (V x Ix El)].
    destruct (comb_interval s sy d x l G El Lx) as (s1 & E1 & G1 & A1 & A2 & A3 & A4 & (ds1 & A5) & A6 & A7 & A8).
    rewrite E1. cbn [dbind]. destruct (IH s1 G1) as (s2 & E2 & G2 & B1 & B2 & B3 & B4 & (ds2 & B5) & B6 & B7 & B8).
    { intros y I. apply H. now right. }
    exists s2. split; [exact E2|]. split; [exact G2|]. repeat (split; [congruence|]).
    split; [rewrite B5, A5, <- app_assoc; eauto|]. split; [auto|].
    split; [intros sy' Ne; rewrite B7, A7; auto|].
    intros y l' i n [<-|I] Gy Bi In'; [|eapply B8; eauto]. apply B6, A8; auto. congruence.
Qed.

Lemma comb_drivers : forall blk s, gok s -> (forall sy d, In (sy, d) blk -> dok d /\ allvalid d) ->
  exists s', mergeD [] s blk = DOk s' /\ gok s' /\
    bnext s' = bnext s /\ bnodes s' = bnodes s /\ bvt s' = bvt s /\ bpend s' = bpend s /\
    (exists ds, bdeps s' = bdeps s ++ ds) /\
    (forall sy i n, drives_global (bdm s) sy i n -> drives_global (bdm s') sy i n) /\
    (forall sy, ~ In sy (map fst blk) -> bdm s' sy = bdm s sy) /\
    (forall sy d i n, In (sy, d) blk -> drives d i n -> drives_global (bdm s') sy i n).
Proof.
  induction blk as [|[sy d] blk IH]; intros s G H; cbn [mergeDrivers].
  - exists s. split; [reflexivity|]. split; [exact G|]. repeat (split; [reflexivity|]).
    split; [exists []; now rewrite app_nil_r|]. split; [auto|]. split; [auto|]. intros sy d i n [].
  - destruct (H sy d (or_introl eq_refl)) as [Kd Vd].
    destruct (comb_intervals sy d Vd (ivs d) s G) as (s1 & E1 & G1 & A1 & A2 & A3 & A4 & (ds1 & A5) & A6 & A7 & A8).
    { intros x I. split; [exact I|]. destruct Kd as [W _]. apply wf_spec in W. now apply W. }
    rewrite E1. cbn [dbind]. destruct (IH s1 G1) as (s2 & E2 & G2 & B1 & B2 & B3 & B4 & (ds2 & B5) & B6 & B7 & B8).
    { intros sy' d' I. apply (H sy' d'). now right. }
    exists s2. split; [exact E2|]. split; [exact G2|]. repeat (split; [congruence|]).
    split; [rewrite B5, A5, <- app_assoc; eauto|]. split; [auto|]. split.
    + intros sy' Ne. cbn in Ne. rewrite B7, A7; auto.
    + intros sy' d' i n [[= <- <-]|I] Hd; [|eapply B8; eauto]. apply B6. destruct Hd as (x & l & Ix & Bi & El & In').
      eapply A8; eauto.
Qed.
End Symbols.

(** * Interface references *)
Lemma resolve_iff v b : forall p, In (v, b) (resolve p) <-> reaches p v b.
Proof.
  fix IH 1. intros [sy b'|l|].
  - cbn. split; [intros [[= -> ->]|[]]; constructor|]. intros H. inversion H. now left.
  - change (resolve (IPort l)) with (flat_map resolve l).
    assert (Q : In (v, b) (flat_map resolve l) <-> exists p, In p l /\ reaches p v b).
    { induction l as [|p l IHl]; cbn [flat_map].
      - split; [intros []|intros (p & [] & _)].
      - rewrite in_app_iff, (IH p), IHl. split.
        + intros [H|(q & I & H)]; [exists p; split; [now left|exact H]|exists q; split; [now right|exact H]].
        + intros (q & [<-|I] & H); [now left|right; eauto]. }
    rewrite Q. split; [intros (p & I & H); econstructor; eauto|]. intros H. inversion H. eauto.
  - cbn. split; [intros []|intros H; inversion H].
Qed.
Lemma resolve_spec v b l : In (v, b) (resolveInterfaceRef l) <-> behind_var l v b.
Proof.
  unfold resolveInterfaceRef, behind_var. rewrite in_flat_map. split; intros (p & I & H); exists p; split; auto; now apply resolve_iff.
Qed.
