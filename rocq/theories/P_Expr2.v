(** Proofs about expression walks: what is recorded, branches, chains. *)
From Verif Require Import Base M_Graph M_Range M_Netlist M_Annot M_Interval M_Heap M_Drivers M_Pending
  M_DFA S_Interval S_Drivers S_DFA P_Interval P_Heap P_Drivers P_DriversX P_DFA P_DFA2 P_DFA3 P_DFA4 P_DFA5 P_DFA6
  M_Expr S_Expr P_Expr.
Local Open Scope Z_scope.

Section Walk.
Variable nm : nat -> str.
Variable automatic : nat -> bool.
Variable external : option nat.
Variable sc ns : bool.

(** Reading [eff]. *)
Lemma eff_dep D m x l ds ps : eff nm automatic external D m x l ds ps -> forall e, In e ds ->
  exists P sy b n i, In (P, (sy, b)) l /\ x = true /\ Nat.odd (length P) = true /\ automatic sy = false /\
    e = DDep n m (Some (nm sy)) b EKNone /\ bit b i /\ has (nth sy D dm_empty) i n.
Proof.
  intros H. induction H as [|P r l d p ds ps O H IH]; [easy|]. intros e I. apply in_app_or in I. destruct I as [I|I].
  - unfold one_ref in O. destruct (automatic (fst r)) eqn:A; [now destruct O as [-> _]|].
    destruct (x && par P) eqn:X; [|now destruct O as [-> _]]. apply andb_true_iff in X. destruct X as [-> X].
    destruct (rds_sound _ _ _ _ _ _ O e I) as (sy & b & n & i & -> & J & Bi & Hs).
    destruct J as [->|[]]. exists P, sy, b, n, i. cbn in *. tauto.
  - destruct (IH e I) as (P' & sy & b & n & i & J & R). exists P', sy, b, n, i. split; [now right|exact R].
Qed.
Lemma eff_pend D m x l ds ps : eff nm automatic external D m x l ds ps -> forall p, In p ps ->
  exists P b, In (P, (psym p, b)) l /\ automatic (psym p) = false /\
    pnode p = (if x && Nat.odd (length P) then Some m else external) /\ forall i, bit (pbounds p) i -> bit b i.
Proof.
  intros H. induction H as [|P r l d p ds ps O H IH]; [easy|]. intros q I. apply in_app_or in I. destruct I as [I|I].
  - unfold one_ref in O. destruct (automatic (fst r)) eqn:A; [now destruct O as [_ ->]|].
    destruct (x && par P) eqn:X.
    + destruct (rds_psound _ _ _ _ _ _ O q I) as (Q & b & J & Hi). destruct J as [J|[]]. subst r. cbn [fst] in A.
      exists P, b. split; [now left|]. split; [exact A|]. unfold par in X. rewrite X. split; [exact Q|].
      intros i Bi. now destruct (Hi i Bi).
    + destruct O as [_ ->]. destruct I as [<-|[]]. cbn [psym pnode pbounds]. exists P, (snd r).
      split; [left; now destruct r|]. split; [exact A|]. unfold par in X. rewrite X. auto.
  - destruct (IH q I) as (P' & b & J & R). exists P', b. split; [now right|exact R].
Qed.
Lemma eff_has D m x l ds ps : eff nm automatic external D m x l ds ps -> forall P sy b, In (P, (sy, b)) l ->
  automatic sy = false ->
  (x && Nat.odd (length P) = true ->
   (forall i, bit b i -> ~ covers (ivs (nth sy D dm_empty)) i -> exists p, In p ps /\ psym p = sy /\ pnode p = Some m /\ bit (pbounds p) i) /\
   (fits (nth sy D dm_empty) b -> forall i n, bit b i -> has (nth sy D dm_empty) i n -> In (DDep n m (Some (nm sy)) b EKNone) ds)) /\
  (x && Nat.odd (length P) = false -> In (Pend sy (nm sy) b external EKNone) ps).
Proof.
  intros H. induction H as [|P r l d p ds ps O H IH]; [easy|]. intros P' sy b I A. destruct I as [I|I].
  - injection I as -> ->. unfold one_ref in O. cbn [fst snd] in O. rewrite A in O. unfold par in O. split; intros X; rewrite X in O.
    + split.
      * intros i Bi N. destruct (rds_pcomplete _ _ _ _ _ _ O sy b i (or_introl eq_refl) Bi N) as (q & J & Es & Bq).
        exists q. split; [apply in_or_app; now left|]. split; [exact Es|]. split; [|exact Bq].
        now destruct (rds_psound _ _ _ _ _ _ O q J).
      * intros F i n Bi Hs. apply in_or_app. left. apply (rds_complete _ _ _ _ _ _ O sy b i n); auto. now left.
    + destruct O as [_ ->]. apply in_or_app. left. now left.
  - destruct (IH P' sy b I A) as [H1 H2]. split.
    + intros X. destruct (H1 X) as [H3 H4]. split.
      * intros i Bi N. destruct (H3 i Bi N) as (q & J & R). exists q. split; [apply in_or_app; now right|exact R].
      * intros F i n Bi Hs. apply in_or_app. right. eauto.
    + intros X. apply in_or_app. right. auto.
Qed.

(** From any state with a node and intact entries. *)
Lemma walk_from a f m e : okG a -> anode a = Some m -> areach a = true ->
  exists r ds ps, visit nm automatic external sc ns (ST a f) e = DOk r /\
    ends sc ns (adefs a) m (acond a) true e r (added f ds ps) /\
    eff nm automatic external (adefs a) m true (occ sc ns e) ds ps.
Proof.
  intros O N R. destruct a as [d n c r]. cbn in N, R. subst.
  exact (walk_spec nm automatic external sc ns d m c O e true f).
Qed.

(** * Chains *)
Lemma len_cat P Q : length (ecat P Q) = (length P * length Q)%nat.
Proof.
  induction P as [|t P IH]; [reflexivity|]. cbn [ecat flat_map]. rewrite app_length, map_length. cbn [length Nat.mul].
  transitivity (length Q + length (ecat P Q))%nat; [reflexivity|now rewrite IH].
Qed.
Lemma plain_one : forall e, plain_expr e = true -> forall o, length (epaths sc ns o e) = 1%nat.
Proof.
  induction e; cbn [plain_expr epaths]; intros H o; try discriminate; try reflexivity.
  apply andb_true_iff in H. destruct H as [H1 H2]. now rewrite len_cat, IHe1, IHe2.
Qed.
Lemma plain_occ : forall e, plain_expr e = true -> forall P r, In (P, r) (occ sc ns e) -> length P = 1%nat.
Proof.
  induction e; cbn [plain_expr occ]; intros H P r' I; try discriminate; try easy.
  - destruct I as [[= <- _]|[]]. reflexivity.
  - apply andb_true_iff in H. destruct H as [H1 H2]. apply in_app_or in I. destruct I as [I|I]; [eauto|].
    apply in_map_iff in I. destruct I as ([P' r2] & [= <- <-] & I). now rewrite len_cat, (plain_one e1), (IHe2 H2 P' r2).
Qed.

Lemma tail_occ e : Tail e -> forall P r, In (P, r) (occ sc ns e) -> length P = 1%nat.
Proof.
  intros T. induction T as [e H|a b H T IH|c a b H Ta IHa Tb IHb]; intros P r I.
  - eapply plain_occ; eauto.
  - cbn [occ] in I. apply in_app_or in I. destruct I as [I|I]; [eapply plain_occ; eauto|].
    apply in_map_iff in I. destruct I as ([P' r2] & [= <- <-] & I). now rewrite len_cat, (plain_one a), (IH P' r2).
  - cbn [occ] in I. rewrite !in_app_iff in I. destruct I as [I|[I|I]]; [eapply plain_occ; eauto| |];
      apply in_map_iff in I; destruct I as ([P' r2] & [= <- <-] & I); rewrite len_cat, (plain_one c) by exact H.
    + now rewrite (IHa P' r2).
    + now rewrite (IHb P' r2).
Qed.
End Walk.

(** The number of paths of a chain of [k + 1] plain operands. *)
Definition counts ns (e : vx) (t f : nat) : Prop :=
  length (epaths true ns (Some true) e) = t /\ length (epaths true ns (Some false) e) = f /\
  forall P r, In (P, r) (occ true ns e) -> length P = 1%nat.
Lemma and_chain_counts ns : forall l x k, counts ns x 1 k -> Forall (fun y => plain_expr y = true) l ->
  counts ns (and_chain x l) 1 (k + length l).
Proof.
  induction l as [|y l IH]; intros x k H F; cbn [and_chain length]; [now rewrite Nat.add_0_r|].
  inversion F as [|? ? Py Fl]; subst. replace (k + S (length l))%nat with (S k + length l)%nat by lia. apply IH; [|exact Fl].
  destruct H as (H1 & H2 & H3). split; [|split].
  - cbn [epaths]. now rewrite app_nil_r, len_cat, H1, plain_one.
  - cbn [epaths]. rewrite app_length, len_cat, H1, H2, plain_one by exact Py. lia.
  - intros P r I. cbn [occ] in I. apply in_app_or in I. destruct I as [I|I]; [eauto|].
    apply in_map_iff in I. destruct I as ([P' r2] & [= <- <-] & I). rewrite len_cat, H1. now rewrite (plain_occ true ns y Py P' r2).
Qed.
Lemma or_chain_counts ns : forall l x k, counts ns x k 1 -> Forall (fun y => plain_expr y = true) l ->
  counts ns (or_chain x l) (k + length l) 1.
Proof.
  induction l as [|y l IH]; intros x k H F; cbn [or_chain length]; [now rewrite Nat.add_0_r|].
  inversion F as [|? ? Py Fl]; subst. replace (k + S (length l))%nat with (S k + length l)%nat by lia. apply IH; [|exact Fl].
  destruct H as (H1 & H2 & H3). split; [|split].
  - cbn [epaths]. rewrite app_length, len_cat, H1, H2, plain_one by exact Py. lia.
  - cbn [epaths]. now rewrite app_nil_r, len_cat, H2, plain_one.
  - intros P r I. cbn [occ] in I. apply in_app_or in I. destruct I as [I|I]; [eauto|].
    apply in_map_iff in I. destruct I as ([P' r2] & [= <- <-] & I). rewrite len_cat, H2. now rewrite (plain_occ true ns y Py P' r2).
Qed.
Lemma plain_counts ns x : plain_expr x = true -> counts ns x 1 1.
Proof. intros H. split; [now apply plain_one|]. split; [now apply plain_one|]. now apply plain_occ. Qed.

(** * Branches *)
Section Branch.
Variable nm : nat -> str.
Variable automatic : nat -> bool.
Variable external : option nat.
Variable sc ns : bool.

Lemma enter_spec s l c : okG (cur s) -> areach (cur s) = true ->
  exists s1 a ds ps, enter_if_expr nm automatic external sc ns s l c = DOk (s1, a) /\
    In (fnext (fxs s), KCond l) (fnodes (fxs s1)) /\ fnext (fxs s1) = S (fnext (fxs s)) /\
    let node b := if Nat.odd (length (epaths sc ns (Some b) c)) then Some (fnext (fxs s)) else None in
    adefs (cur s1) = adefs (cur s) /\ adefs a = adefs (cur s) /\ areach (cur s1) = true /\ areach a = true /\
    anode (cur s1) = node true /\ acond (cur s1) = node true /\ anode a = node false /\ acond a = node false /\
    fpend (fxs s1) = fpend (fxs s) ++ ps /\
    fdeps (fxs s1) = fdeps (fxs s) ++ (match acond (cur s) with Some c0 => [DPlain c0 (fnext (fxs s))] | None => [] end) ++ ds /\
    eff nm automatic external (adefs (cur s)) (fnext (fxs s)) true (occ sc ns c) ds ps.
Proof.
  intros O R. unfold enter_if_expr. destruct (create s (KCond l)) as [s0 n] eqn:C.
  destruct s as [a f]. cbn [cur fxs] in *. injection C as <- <-.
  set (u := updateNode _ _ true). assert (Uc : cur u = AS (adefs a) (Some (fnext f)) (Some (fnext f)) true).
  { unfold u, updateNode. cbn [cur with_fx]. destruct (acond a); cbn; now rewrite R. }
  assert (Uf : fxs u = FX (S (fnext f)) (fnodes f ++ [(fnext f, KCond l)])
                 (fdeps f ++ match acond a with Some c0 => [DPlain c0 (fnext f)] | None => [] end) (fpend f) (flv f)).
  { unfold u, updateNode. cbn [cur with_fx]. destruct (acond a); cbn; [reflexivity|]. now rewrite app_nil_r. }
  destruct u as [ua uf]. cbn [cur fxs] in *. subst ua.
  destruct (walk_from nm automatic external sc ns (AS (adefs a) (Some (fnext f)) (Some (fnext f)) true) uf (fnext f) c)
    as (r & ds & ps & E & En & F); auto.
  rewrite E. cbn [dbind]. rewrite (ends_outcomes _ _ _ _ _ _ _ _ _ En). cbn [adefs acond andb].
  eexists _, _, ds, ps. split; [reflexivity|]. subst uf. cbn [fxs added fnodes fnext cur at_ adefs areach anode acond fpend fdeps].
  unfold par. split; [apply in_or_app; right; now left|]. rewrite <- app_assoc. repeat split; auto.
Qed.

(** A first assignment reached without a condition gets no edge from an older node. *)
Definition no_old (N : nat) (s s' : st) : Prop :=
  (fnext (fxs s) <= fnext (fxs s'))%nat /\ exists ds, fdeps (fxs s') = fdeps (fxs s) ++ ds /\ forall x y, In (DPlain x y) ds -> (N <= x)%nat.
Lemma no_old_refl N s : no_old N s s.
Proof. split; [lia|]. exists []. rewrite app_nil_r. split; [reflexivity|easy]. Qed.
Lemma no_old_trans N s1 s2 s3 : no_old N s1 s2 -> no_old N s2 s3 -> no_old N s1 s3.
Proof.
  intros (L1 & d1 & E1 & H1) (L2 & d2 & E2 & H2). split; [lia|]. exists (d1 ++ d2). rewrite E2, E1, app_assoc.
  split; [reflexivity|]. intros x y I. apply in_app_or in I. destruct I; eauto.
Qed.
Lemma no_old_each {A} N (g : st -> A -> dres st) : (forall s x s', (N <= fnext (fxs s))%nat -> g s x = DOk s' -> no_old N s s') ->
  forall l s s', (N <= fnext (fxs s))%nat -> each g s l = DOk s' -> no_old N s s'.
Proof.
  intros H. induction l as [|x l IH]; intros s s' L; cbn [each]; [intros [= <-]; apply no_old_refl|].
  destruct (g s x) as [s1|] eqn:E; [|discriminate]. cbn [dbind]. intros E2. pose proof (H _ _ _ L E) as H1.
  eapply no_old_trans; [exact H1|]. apply IH; auto. destruct H1 as [H1 _]. lia.
Qed.
Lemma rvalue_no_old N s sy b s' : handleRvalue nm external s sy b = DOk s' -> no_old N s s'.
Proof.
  assert (Ad : forall s sy b n, no_old N s (addRvalue nm s sy b n)).
  { intros. split; [cbn; lia|]. exists []. split; [cbn; now rewrite app_nil_r|easy]. }
  unfold handleRvalue. destruct (nth_error _ _) as [d|]; [|intros [= <-]; apply Ad].
  destruct (anode (cur s)) as [m|]; [|intros [= <-]; apply Ad].
  destruct (rv_loop nm d m sy b (dm_find d b)) as [[stop ds]|e] eqn:E; [|discriminate]. cbn [dbind].
  assert (Hd : forall its stop ds, rv_loop nm d m sy b its = DOk (stop, ds) -> forall x y, ~ In (DPlain x y) ds).
  { clear. induction its as [|it its IH]; intros stop ds; cbn [rv_loop]; [intros [= _ <-] x y []|].
    destruct (getDriverList d (ival it)) as [l|]; [|discriminate]. cbn [dbind].
    assert (Hm : forall x y, ~ In (DPlain x y) (addDriversToNode nm l m sy b)).
    { intros x y I. apply in_map_iff in I. destruct I as (z & Q & _). discriminate. }
    destruct (contains _ b); [intros [= _ <-]; apply Hm|].
    destruct (rv_loop nm d m sy b its) as [[st2 ds2]|] eqn:E; [|discriminate]. cbn [dbind]. intros [= _ <-] x y I.
    apply in_app_or in I. destruct I as [I|I]; [|eapply IH; eauto]. destruct (contains b _); [eapply Hm; eauto|easy]. }
  assert (He : no_old N s (emit s ds)).
  { split; [cbn; lia|]. exists ds. split; [reflexivity|]. intros x y I. destruct (Hd _ _ _ E x y I). }
  destruct stop; intros [= <-]; [exact He|]. eapply no_old_trans; [exact He|].
  generalize (emit s ds). induction (difference [IV (lower b) (upper b) 0%nat] (ivs d)) as [|x l IH]; intros s0;
    cbn [fold_left]; [apply no_old_refl|]. eapply no_old_trans; [|apply IH]. apply Ad.
Qed.
Lemma rhs_no_old N s r s' : (N <= fnext (fxs s))%nat -> drive_rhs nm automatic external s r = DOk s' -> no_old N s s'.
Proof.
  intros L. destruct r as [[sy b]|l| |]; cbn [drive_rhs].
  - apply rvalue_no_old.
  - apply no_old_each; [|exact L]. intros s0 x s1 _. unfold noteReference. destruct (negb _); [intros [= <-]; apply no_old_refl|].
    destruct (automatic _); [intros [= <-]; apply no_old_refl|]. apply rvalue_no_old.
  - intros [= <-]. apply no_old_refl.
  - destruct (anode (cur s)); intros [= <-]; [|apply no_old_refl]. split; [cbn; lia|].
    eexists. split; [cbn; reflexivity|]. intros x y [[= <- _]|[]]. exact L.
Qed.
Lemma seg_no_old l bl sn N s g s' : (N <= fnext (fxs s))%nat ->
  do_seg nm automatic external l bl sn None s g = DOk s' -> no_old N s s'.
Proof.
  intros L. unfold do_seg. destruct (create _ (KAssign l)) as [s1 n] eqn:C.
  assert (H0 : no_old N s (updateNode s1 n false) /\ (N <= fnext (fxs (updateNode s1 n false)))%nat).
  { injection C as <- <-. unfold updateNode. cbn. split; [|lia]. split; [cbn; lia|]. exists []. split; [cbn; now rewrite app_nil_r|easy]. }
  destruct H0 as [H0 L1]. destruct (each (fun s x => handleLvalue bl s (fst x) (snd x)) _ (slhs g)) as [s2|] eqn:E; [|discriminate]. cbn [dbind]. intros E2.
  assert (H1 : no_old N (updateNode s1 n false) s2).
  { revert E. apply no_old_each; [|exact L1]. intros s0 x s3 _. unfold handleLvalue. destruct (anode (cur s0)); [|discriminate].
    destruct bl.
    - destruct (trackDrivers _ _ _ _ _); [|discriminate]. cbn [dbind]. intros [= <-]. split; [cbn; lia|]. exists []. split; [cbn; now rewrite app_nil_r|easy].
    - intros [= <-]. split; [cbn; lia|]. exists []. split; [cbn; now rewrite app_nil_r|easy]. }
  eapply no_old_trans; [exact H0|]. eapply no_old_trans; [exact H1|]. revert E2. apply no_old_each.
  - intros s0 x s3 L0. now apply rhs_no_old.
  - destruct H1 as [H1 _]. lia.
Qed.
Lemma aligned_no_old s l bl gs s' : acond (cur s) = None -> exec nm automatic external s (SAligned l bl gs) = DOk s' ->
  exists ds, fdeps (fxs s') = fdeps (fxs s) ++ ds /\ forall x y, In (DPlain x y) ds -> (fnext (fxs s) <= x)%nat.
Proof.
  intros A. cbn [exec]. unfold do_aligned. rewrite A. intros E.
  assert (H : no_old (fnext (fxs s)) s s').
  { revert E. apply no_old_each; [|lia]. intros s0 x s1 L. now apply seg_no_old. }
  destruct H as [_ H]. exact H.
Qed.
Lemma aligned_control s l bl gs s' c : acond (cur s) = Some c -> exec nm automatic external s (SAligned l bl gs) = DOk s' ->
  exists ids, length ids = length gs /\ NoDup ids /\
    forall n, In n ids -> In (n, KAssign l) (fnodes (fxs s')) /\ In (DPlain c n) (fdeps (fxs s')).
Proof.
  intros A. cbn [exec]. unfold do_aligned. rewrite A. intros E.
  destruct (segs_control _ _ _ _ _ _ _ _ _ _ E) as (_ & ids & L & Nd & H). exists ids. split; [exact L|]. split; [exact Nd|].
  intros n I. destruct (H n I) as (_ & R). exact R.
Qed.
End Branch.

Lemma and_chain_snoc : forall l x z, and_chain x (l ++ [z]) = XAnd (and_chain x l) z.
Proof. induction l as [|y l IH]; intros x z; cbn [app and_chain]; [reflexivity|apply IH]. Qed.
Lemma or_chain_snoc : forall l x z, or_chain x (l ++ [z]) = XOr (or_chain x l) z.
Proof. induction l as [|y l IH]; intros x z; cbn [app or_chain]; [reflexivity|apply IH]. Qed.
Lemma chain_total ns x l : plain_expr x = true -> Forall (fun z => plain_expr z = true) l -> l <> [] ->
  length (epaths true ns None (and_chain x l)) = S (S (length l)) /\
  length (epaths true ns None (or_chain x l)) = S (S (length l)).
Proof.
  intros Px Pl Ne.
  pose proof (and_chain_counts ns l x 1 (plain_counts ns x Px) Pl) as (A1 & A2 & _).
  pose proof (or_chain_counts ns l x 1 (plain_counts ns x Px) Pl) as (O1 & O2 & _).
  destruct (exists_last Ne) as (l' & z & ->). rewrite and_chain_snoc, or_chain_snoc in *. split.
  - change (epaths true ns None (XAnd (and_chain x l') z)) with
      (epaths true ns (Some true) (XAnd (and_chain x l') z) ++ epaths true ns (Some false) (XAnd (and_chain x l') z)).
    rewrite app_length. lia.
  - change (epaths true ns None (XOr (or_chain x l') z)) with
      (epaths true ns (Some true) (XOr (or_chain x l') z) ++ epaths true ns (Some false) (XOr (or_chain x l') z)).
    rewrite app_length. lia.
Qed.
