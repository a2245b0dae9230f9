(** Proofs about clocked blocks: the nodes of a block of non-blocking assignments
    determine the next values of what it writes. *)
From Coq Require Import Sorted.
From Verif Require Import Base M_Graph M_Range M_Netlist M_Annot M_Interval M_Heap M_Drivers M_Pending M_DFA M_Builder M_Slice M_Port M_Flow M_Proc
  S_Reach S_Netlist S_Interval S_Drivers S_Pending S_DFA S_Slice S_Port S_Flow S_Proc S_Seq
  P_Interval P_Heap P_Drivers P_DriversX P_DFA P_DFA2 P_Slice P_Slice2 P_Flow2 P_Flow3 P_Flow4 P_Proc1 P_Proc2.

(** * Left sides *)
Definition push_all (f : fx) (F : list (nat * range * nat)) : fx := FX (fnext f) (fnodes f) (fdeps f) (fpend f) (flv f ++ F).
Lemma nb_lvs n : forall rs s, anode (cur s) = Some n ->
  M_DFA.each (fun s x => handleLvalue false s (fst x) (snd x)) s rs = DOk (ST (cur s) (push_all (fxs s) (map (fun r => (fst r, snd r, n)) rs))).
Proof.
  induction rs as [|r rs IH]; intros s An; cbn [M_DFA.each].
  - unfold push_all. cbn. rewrite app_nil_r. destruct s as [a []]. reflexivity.
  - unfold handleLvalue at 1. rewrite An. cbn [dbind]. rewrite IH by exact An. unfold push_lv, with_fx, push_all. cbn. now rewrite <- app_assoc.
Qed.
(** The entries of the left sides of some segments. *)
Definition pushes (L : list (seg * nat)) : list (nat * range * nat) :=
  flat_map (fun x => map (fun r => (fst r, snd r, snd x)) (slhs (fst x))) L.
Lemma pushes_in L t b m : In (t, b, m) (pushes L) <-> exists g, In (g, m) L /\ In (t, b) (slhs g).
Proof.
  unfold pushes. rewrite in_flat_map. split.
  - intros ([g m'] & I & J). cbn in J. apply in_map_iff in J. destruct J as ([t' b'] & E & J). cbn in E. injection E as <- <- <-. eauto.
  - intros (g & I & J). exists (g, m). split; [exact I|]. cbn. apply in_map_iff. exists (t, b). auto.
Qed.

(** A bit is among some entries. *)
Definition cov (F : list (nat * range * nat)) (t j : nat) : Prop := exists b m, In (t, b, m) F /\ bit b (Z.of_nat j).
Lemma cov_app F G t j : cov (F ++ G) t j <-> cov F t j \/ cov G t j.
Proof.
  split.
  - intros (b & m & I & B). apply in_app_or in I. destruct I; [left|right]; exists b, m; auto.
  - intros [(b & m & I & B)|(b & m & I & B)]; exists b, m; (split; [apply in_or_app; auto|exact B]).
Qed.
Lemma cov_dec F t j : cov F t j \/ ~ cov F t j.
Proof.
  destruct (rbit_dec (map (fun e => (fst (fst e), snd (fst e))) F) t (Z.of_nat j)) as [(b & I & B)|N].
  - left. apply in_map_iff in I. destruct I as ([[t' b'] m] & E & I). cbn in E. injection E as <- <-. exists b', m. auto.
  - right. intros (b & m & I & B). apply N. exists b. split; [|exact B]. apply in_map_iff. exists (t, b, m). auto.
Qed.
(** The last entry for a bit. *)
Definition lastF (F : list (nat * range * nat)) (t j m : nat) : Prop := exists F1 b F2, F = F1 ++ (t, b, m) :: F2 /\ bit b (Z.of_nat j) /\ ~ cov F2 t j.
Lemma lastF_in F t j m : lastF F t j m -> exists b, In (t, b, m) F /\ bit b (Z.of_nat j).
Proof. intros (F1 & b & F2 & -> & B & _). exists b. split; [apply in_or_app; right; now left|exact B]. Qed.
Lemma lastF_cov F t j m : lastF F t j m -> cov F t j.
Proof. intros H. apply lastF_in in H. destruct H as (b & H). exists b, m. exact H. Qed.
Lemma lastF_some F t j : cov F t j -> exists m, lastF F t j m.
Proof.
  induction F as [|[[t0 b0] m0] F IH]; intros (b & m & I & B); [destruct I|]. destruct (cov_dec F t j) as [Q|Q].
  - destruct (IH Q) as (m' & F1 & b' & F2 & -> & R). exists m', ((t0, b0, m0) :: F1), b', F2. auto.
  - destruct I as [[= -> -> ->]|I]; [|destruct Q; exists b, m; auto]. exists m, [], b, F. auto.
Qed.
Lemma lastF_cons t0 b0 m0 F t j m : lastF ((t0, b0, m0) :: F) t j m <-> lastF F t j m \/ (t = t0 /\ bit b0 (Z.of_nat j) /\ m = m0 /\ ~ cov F t j).
Proof.
  split.
  - intros ([|e F1] & b & F2 & E & B & N); cbn in E.
    + injection E as -> -> -> ->. right. auto.
    + injection E as <- ->. left. exists F1, b, F2. auto.
  - intros [(F1 & b & F2 & -> & B & N)|(-> & B & -> & N)]; [exists ((t0, b0, m0) :: F1), b, F2; auto|exists [], b0, F; auto].
Qed.
Lemma lastF_app F G t j m : lastF (F ++ G) t j m -> lastF G t j m \/ (lastF F t j m /\ ~ cov G t j).
Proof.
  induction F as [|[[t0 b0] m0] F IH]; cbn [app]; [auto|]. intros H. apply lastF_cons in H. destruct H as [H|(A1 & A2 & A3 & N)].
  - destruct (IH H) as [Q|[Q N]]; [now left|right]. split; [apply lastF_cons; now left|exact N].
  - right. split; [|intros Q; apply N, cov_app; now right]. apply lastF_cons. right. split; [exact A1|]. split; [exact A2|]. split; [exact A3|]. intros Q. apply N, cov_app. now left.
Qed.
Definition wkey (w : wr) : nat * range := (snd (fst w), snd w).
(** * Nothing is defined locally *)
Definition clean (a : astate) : Prop := adefs a = [] /\ areach a = true.
Lemma clean_ok a : clean a -> okA [] a.
Proof. intros [E _] sy. unfold defs. rewrite E. destruct sy; apply okd_empty. Qed.
Lemma clean_no a t i m : clean a -> ~ hasA a t i m.
Proof. intros [E _] H. unfold hasA, defs in H. rewrite E in H. destruct H as (x & l & Ix & _). destruct t; destruct Ix. Qed.
Lemma fits_nil t b : fitsW [] t b.
Proof. intros lo hi (l & b' & [] & _). Qed.
Lemma join_clean s other : clean (cur s) -> clean other -> exists s', joinState s other = DOk s' /\ clean (cur s') /\ gle (fxs s) (fxs s').
Proof.
  intros [D1 R1] [D2 R2]. unfold joinState. rewrite R1, R2. cbn [Bool.eqb]. unfold mergeStates. rewrite D2. cbn [merge_defs dbind].
  destruct (nodes_gle (with_cur s (cur s)) (anode (cur s)) (anode other)) as (s1 & n & E1 & C1 & G1). rewrite E1.
  destruct (nodes_gle s1 (acond (cur s)) (acond other)) as (s2 & c & E2 & C2 & G2). rewrite E2.
  eexists. split; [reflexivity|]. cbn [with_cur cur fxs]. split; [split; [exact D1|exact R1]|]. eapply gle_trans; eauto.
Qed.

Section Run.
Variable nm : nat -> str.
Section Segs.
(** The state before the assignment. *)
Variable s0 : st.
Record ninv (s : st) (L : list (seg * nat)) : Prop := {
  ni_clean : clean (cur s);
  ni_fle : fle (fxs s0) (fxs s);
  ni_flv : flv (fxs s) = flv (fxs s0) ++ pushes L;
  ni_node : forall g n, In (g, n) L -> fnext (fxs s0) <= n < fnext (fxs s) /\ ctl_edge (acond (cur s0)) (fxs s) n /\
    forall t i, rbit (flat_map P_Flow2.seg_reads (srhs g)) t i -> pended (fpend (fxs s)) n t i }.
Lemma nsegs_run : forall rest s L, ninv s L ->
  exists s' L', M_DFA.each (do_seg nm (fun _ => false) None 0 false (anode (cur s0)) (acond (cur s0))) s rest = DOk s' /\ ninv s' (L ++ L') /\ map fst L' = rest.
Proof.
  induction rest as [|g rest IH]; intros s L [Cl Gl Fl Hn]; cbn [M_DFA.each].
  - exists s, []. rewrite app_nil_r. split; [reflexivity|]. split; [now split|reflexivity].
  - unfold do_seg at 1. set (a0 := AS (adefs (cur s)) (anode (cur s0)) (acond (cur s0)) (areach (cur s))).
    pose proof (new_node nm (with_cur s a0) (KAssign 0) false) as Nn. cbv zeta in Nn.
    destruct (create (with_cur s a0) (KAssign 0)) as [s1 n] eqn:Ec. set (s2 := updateNode s1 n false) in *.
    destruct Nn as (En & Nx & G2 & Ct & Cu). cbn [with_cur cur fxs] in En, Nx, G2, Ct, Cu. unfold a0 in Ct, Cu. cbn [acond adefs areach] in Ct, Cu.
    assert (C2 : clean (cur s2)) by (rewrite Cu; exact Cl).
    rewrite (nb_lvs n (slhs g) s2) by now rewrite Cu. cbn [dbind]. set (s3 := ST (cur s2) _).
    destruct (read_srcs nm [] n (srhs g) s3) as (s4 & E4 & C4 & F4 & P4).
    { cbn [s3 cur]. now rewrite Cu. } { apply C2. } { now apply clean_ok. } { intros; apply fits_nil. }
    rewrite E4. cbn [dbind].
    assert (G3 : fle (fxs s) (fxs s3)).
    { destruct G2 as [(A1 & A2 & A3 & A4) _]. unfold s3, push_all, fle. cbn. auto. }
    assert (G4 : fle (fxs s3) (fxs s4)) by apply F4.
    assert (Gs : fle (fxs s) (fxs s4)) by (eapply fle_trans; eauto).
    destruct (IH s4 (L ++ [(g, n)])) as (s' & L' & E' & S' & M').
    { split.
      - rewrite C4. exact C2.
      - eapply fle_trans; eauto.
      - rewrite (proj2 F4). unfold s3, push_all. cbn [fxs flv]. rewrite (proj2 G2), Fl. unfold pushes. rewrite flat_map_app. cbn. now rewrite app_nil_r, app_assoc.
      - intros g0 n0 I0. destruct Gs as (L1 & _ & D1 & P1). destruct Gl as (L0 & _). apply in_app_or in I0. destruct I0 as [I0|[[= <- <-]|[]]].
        + destruct (Hn g0 n0 I0) as (B1 & B2 & B3). split; [lia|]. split; [intros c0 Q; eapply joined_incl; [exact D1|auto]|]. intros t i R. eapply pended_incl; [exact P1|]. now apply B3.
        + assert (L4 : fnext (fxs s2) <= fnext (fxs s4)) by apply G4. split; [lia|]. split.
          * intros c0 Q. eapply joined_incl; [apply G4|]. now apply Ct.
          * intros t i R. apply (P4 t i R). intros m. apply clean_no. exact C2. }
    exists s', ((g, n) :: L'). split; [exact E'|]. split; [now rewrite <- app_assoc in S'|]. cbn. now rewrite M'.
Qed.
Lemma nb_run gs : clean (cur s0) -> exists s' L, exec nm (fun _ => false) None s0 (SAligned 0 false gs) = DOk s' /\ ninv s' L /\ map fst L = gs.
Proof.
  intros C. cbn [exec]. unfold do_aligned. destruct (nsegs_run gs s0 []) as (s' & L & E & I & M).
  - split; [exact C|apply fle_refl|now rewrite app_nil_r|intros g n []].
  - exists s', L. auto.
Qed.
End Segs.
End Run.

Section Block.
Context {V : Type}.
Variable vz : V.
Variable istrue : list V -> bool.
Variable hits : list V -> list V -> bool.
Variable rb : bool.
Variable h : hints.
Variable ports : list fport.
Variable nm : nat -> str.
Hypothesis Sh : sorted_hints h.
Notation expr := (expr V).
Notation env := (nat -> nat -> V).
Notation reads := S_Slice.reads.
Notation seg_reads := P_Flow2.seg_reads.
Notation exec := (exec nm (fun _ => false) None).
Notation nrun := (nrun vz istrue hits).
Notation cnrun := (cnrun vz istrue hits).
Notation nasg_ok := (nasg_ok vz rb h ports).
Notation nstmt_ok := (nstmt_ok vz rb h ports).
Notation nitems_ok := (nitems_ok vz rb h ports).
Notation proc_stmt := (proc_stmt vz rb h).
Notation proc_items := (proc_items vz rb h).
Notation ghX := (nat -> env -> nat -> nat -> option V).
Notation ghC := (nat -> env -> option nat).
Notation nbw := (nb_writes (fun _ => false)).
Variable N0 : nat.
Notation Bd := (Bd ports N0).
Notation BallO := (BallO ports N0).
Notation ctl := (ctl N0).

Lemma Bd_fle f f' (X : ghX) (C : ghC) (X' : ghX) (C' : ghC) n : fle f f' -> ext (S n) X C X' C' -> Bd f X C n -> Bd f' X' C' n.
Proof.
  intros (_ & _ & Dd & Pp) E B v1 v2 H1 H2. apply (same_ext _ _ _ _ _ _ _ _ E); [apply Nat.lt_succ_diag_r|]. apply B.
  - intros m L J. apply (same_ext _ _ _ _ _ _ _ _ E); [lia|]. apply H1; [exact L|]. eapply joined_incl; eauto.
  - intros t j P. apply H2. eapply pended_incl; eauto.
Qed.
Lemma Ball_fle O f f' (X : ghX) (C : ghC) : fle f f' -> Fresh f X C -> BallO O f X C -> BallO O f' X C.
Proof.
  intros G Fr B n L No. destruct (Nat.lt_ge_cases n (fnext f)) as [Ln|Ln].
  - eapply Bd_fle; [exact G|intros k _; auto|]. apply B; [lia|exact No].
  - intros v1 v2 _ _. destruct (Fr n v1 Ln) as [A1 A2], (Fr n v2 Ln) as [A3 A4]. split; [congruence|]. intros t j. now rewrite A2, A4.
Qed.
Lemma ext_tr N N' (X : ghX) (C : ghC) (X1 : ghX) (C1 : ghC) (X2 : ghX) (C2 : ghC) : N <= N' -> ext N X C X1 C1 -> ext N' X1 C1 X2 C2 -> ext N X C X2 C2.
Proof. intros L A B n H. destruct (A n H) as [<- <-]. apply B. lia. Qed.

(** Back from [m] along the edges between the nodes of the block. *)
Inductive chain (D : list dep) (m : nat) : nat -> Prop :=
| ch_self : chain D m m
| ch_back : forall k k', chain D m k -> N0 <= k' < k -> joined D k' k -> chain D m k'.
Lemma chain_incl D D' m k : incl D D' -> chain D m k -> chain D' m k.
Proof. intros H C. induction C as [|k k' C IH L J]; [constructor|]. eapply ch_back; eauto. eapply joined_incl; eauto. Qed.
Lemma chain_le D m k : chain D m k -> k <= m.
Proof. intros H. induction H as [|k k' H IH L J]; [apply le_n|]. eapply Nat.le_trans; [apply Nat.lt_le_incl, L|exact IH]. Qed.
Lemma chain_trans D a b c : chain D a b -> chain D b c -> chain D a c.
Proof. intros A B. induction B; [exact A|]. eapply ch_back; eauto. Qed.
(** The nodes back from [m] do the same. *)
Definition sames (f : fx) (X : ghX) (C : ghC) (m : nat) (v1 v2 : env) : Prop := forall k, chain (fdeps f) m k -> same X C k v1 v2.
Lemma sames_fle f f' (X : ghX) (C : ghC) (X' : ghX) (C' : ghC) N m v1 v2 : fle f f' -> ext N X C X' C' -> m < N -> sames f' X' C' m v1 v2 -> sames f X C m v1 v2.
Proof.
  intros (_ & _ & D & _) E L H k Q. apply (same_ext _ _ _ _ _ _ _ _ E); [apply chain_le in Q; lia|]. apply H. eapply chain_incl; eauto.
Qed.
(** What holds after a statement or the items of a case; [F]: the entries for its left sides;
    [mayp]: the bits that it may write; [dec]: the bits that the last write decides; [ac]: the
    condition it is under. *)
Record NResG (O : nat -> Prop) (run : env -> env -> env) (wr : trace) (mayp dec : nat -> nat -> Prop) (ac : option nat) (s s' : st) (X : ghX) (C : ghC) (X' : ghX) (C' : ghC) (act : env -> bool) (F : list (nat * range * nat)) : Prop := {
  nr_clean : clean (cur s');
  nr_fle : fle (fxs s) (fxs s');
  nr_ext : ext (fnext (fxs s)) X C X' C';
  nr_fresh : Fresh (fxs s') X' C';
  nr_ball : BallO O (fxs s') X' C';
  nr_flv : flv (fxs s') = flv (fxs s) ++ F;
  nr_lt : forall t b m, In (t, b, m) F -> fnext (fxs s) <= m < fnext (fxs s');
  nr_wr : map fst F = map wkey wr;
  nr_out : forall v e t j, ~ cov F t j -> run v e t j = e t j;
  nr_may : forall t j, cov F t j -> mayp t j;
  nr_ctl : forall t b m c, In (t, b, m) F -> ac = Some c -> N0 <= c < fnext (fxs s) -> chain (fdeps (fxs s')) m c;
  nr_val : forall v1 v2 e1 e2 t j m, act v1 = true -> act v2 = true -> dec t j -> lastF F t j m -> e1 t j = e2 t j ->
    sames (fxs s') X' C' m v1 v2 -> run v1 e1 t j = run v2 e2 t j }.
Notation NRes O p q s := (NResG O (nrun p) (nbw q) (may p) (decided p) (acond (cur s)) s).
Definition goalN (p : pst V) : Prop := forall s X C (act : env -> bool) O q, nstmt_ok p -> proc_stmt p = Some q ->
  N0 <= fnext (fxs s) -> clean (cur s) -> Fresh (fxs s) X C -> BallO O (fxs s) X C -> ctl (fxs s) (cur s) C act ->
  exists s' X' C' F, exec s q = DOk s' /\ NRes O p q s s' X C X' C' act F.

Lemma nasg_block bl l r : goalN (PAsg bl l r).
Proof.
  intros s X C act O q Ok Eq L0 Cl Fr Ba Ct. cbn in Ok, Eq. destruct Ok as (-> & Ll & Rr & _ & Ew).
  destruct (asg_segs vz rb h ports nm Sh false l r) as (q' & gs & Wa & Eq' & Ex & _ & _ & Ar & _ & Hg & (_ & _ & Hap & _) & Hl & Hq).
  { split; [exact Ll|]. split; [exact Rr|exact Ew]. }
  rewrite Eq in Eq'. injection Eq' as <-. destruct Ll as (Lv & Tl & Nd & _ & Un). destruct Rr as (Po & Np & Rs). cbn [wrs] in Hq.
  destruct (nb_run nm s gs Cl) as (s' & L & E1 & [C' G' Fl Nn] & ML). rewrite Ex by apply Cl.
  set (E' := fun v => assign vz (lbits l) (eval vz v r) v).
  set (X' := fun n => if n <? fnext (fxs s) then X n else fun v t j => if act v && wb L n t j then Some (E' v t j) else None).
  assert (X'o : forall n, n < fnext (fxs s) -> X' n = X n) by (intros n Ln; unfold X'; now rewrite (proj2 (Nat.ltb_lt _ _) Ln)).
  assert (X'n : forall n v t j, fnext (fxs s) <= n -> X' n v t j = if act v && wb L n t j then Some (E' v t j) else None).
  { intros n v t j Ln. unfold X'. now rewrite (proj2 (Nat.ltb_ge _ _) Ln). }
  assert (Wl : forall t j m, written L t (Z.of_nat j) m -> In (t, j) (lbits l)).
  { intros t j m (g & Ig & B). apply (in_map fst) in Ig. rewrite ML in Ig. destruct (Hl g t _ Ig B) as (j' & Ej & I). apply Nat2Z.inj in Ej. now subst j'. }
  assert (Lw : forall t j, In (t, j) (lbits l) -> exists m, written L t (Z.of_nat j) m).
  { intros t j I. apply In_nth_error in I. destruct I as (k & K). destruct (Hg k t j K) as (g & A & Ig & B & _). rewrite <- ML in Ig. apply in_map_iff in Ig.
    destruct Ig as ([g' m] & Eg & I). cbn in Eg. subst g'. exists m, g. auto. }
  assert (Wc : forall t j m, written L t (Z.of_nat j) m <-> exists b, In (t, b, m) (pushes L) /\ bit b (Z.of_nat j)).
  { intros t j m. split.
    - intros (g & Ig & b & Ib & B). exists b. split; [|exact B]. apply pushes_in. eauto.
    - intros (b & I & B). apply pushes_in in I. destruct I as (g & Ig & Ib). exists g. split; [exact Ig|]. exists b. auto. }
  assert (Wu : forall t j m g m' g', In (g, m) L -> rbit (slhs g) t (Z.of_nat j) -> In (g', m') L -> rbit (slhs g') t (Z.of_nat j) -> m' = m /\ g' = g).
  { intros t j m g m' g' I B I' B'. apply in_split in I. destruct I as (l1 & l2 & EL).
    assert (ML' : gs = map fst l1 ++ g :: map fst l2) by (rewrite <- ML, EL, map_app; reflexivity).
    rewrite EL in I'. apply in_app_or in I'. destruct I' as [I'|[[= <- <-]|I']]; [|auto|]; exfalso; apply (in_map fst) in I'; cbn in I'; apply in_split in I'; destruct I' as (p & q0 & Ep); rewrite Ep in ML'.
    - rewrite <- app_assoc in ML'. cbn in ML'. exact (Hap _ _ _ _ _ ML' _ _ (conj B' B)).
    - exact (Hap _ _ _ _ _ ML' _ _ (conj B B')). }
  exists s', X', C, (pushes L). split; [exact E1|]. assert (Le : fnext (fxs s) <= fnext (fxs s')) by apply G'. split; auto.
  - intros n Ln. auto.
  - intros n v Ln. split; [apply Fr; lia|]. intros t j. rewrite X'n by lia. destruct (wb L n t j) eqn:Wb; [|now rewrite andb_false_r].
    apply wb_spec in Wb. destruct Wb as (g & Ig & _). destruct (Nn g n Ig). lia.
  - intros n Ln Nop. destruct (Nat.lt_ge_cases n (fnext (fxs s))) as [Lo|Lo].
    + apply (Bd_fle (fxs s) (fxs s') X C X' C n); auto; [|apply Ba; [lia|exact Nop]]. intros k Lk. split; [apply X'o; lia|reflexivity].
    + intros v1 v2 H1 H2. split; [destruct (Fr n v1 Lo) as [-> _], (Fr n v2 Lo) as [-> _]; reflexivity|].
      assert (H1' : forall m, N0 <= m < fnext (fxs s) -> joined (fdeps (fxs s')) m n -> same X C m v1 v2).
      { intros m Lm J. specialize (H1 m ltac:(lia) J). unfold same in *. rewrite X'o in H1 by lia. exact H1. }
      intros t j. rewrite !X'n by exact Lo. destruct (wb L n t j) eqn:Wb; [|now rewrite !andb_false_r].
      apply wb_spec in Wb. destruct Wb as (g & Ig & B). destruct (Nn g n Ig) as (_ & Cn & Rn).
      rewrite (act_same _ _ _ _ X C act n v1 v2 Ct Cn H1'). destruct (act v2) eqn:A2; [|reflexivity]. cbn. f_equal.
      assert (Il : In (t, j) (lbits l)) by (eapply Wl; exists g; eauto). apply In_nth_error in Il. destruct Il as (k & K).
      unfold E'. rewrite !(assign_nth vz _ _ _ k t j Nd K). destruct (Hg k t j K) as (g' & A & Ig' & B' & IA & RA & DA).
      assert (g' = g).
      { rewrite <- ML in Ig'. apply in_map_iff in Ig'. destruct Ig' as ([g2 m2] & Eg & I2'). cbn in Eg. subst g2. apply (Wu t j n g m2 g'); auto. }
      subst g'. apply DA. intros t' j' J. apply H2; [apply Rn, RA, J|]. intros p Ip. eapply Np; [apply IA, J|exact Ip].
  - intros t b m I. apply pushes_in in I. destruct I as (g & Ig & _). now destruct (Nn g m Ig).
  - rewrite Hq, <- ML. unfold pushes. clear. induction L as [|[g m] L IH]; [reflexivity|]. cbn. rewrite !map_app. f_equal; [|exact IH].
    rewrite map_map. unfold writes. rewrite map_map. apply map_ext. intros [t b]. reflexivity.
  - intros v e t j Nc. cbn. apply assign_out. intros I. apply Nc. destruct (Lw t j I) as (m & Wm). apply Wc in Wm. destruct Wm as (b & I' & B). exists b, m. auto.
  - intros t j (b & m & I & B). cbn. apply (Wl t j m). apply Wc. eauto.
  - intros t b m c I Q Lc. apply pushes_in in I. destruct I as (g & Ig & _). destruct (Nn g m Ig) as (Lm & Cn & _). eapply ch_back; [constructor|lia|]. now apply Cn.
  - intros v1 v2 e1 e2 t j m A1 A2 _ La _ Sa. apply lastF_in in La. apply Wc in La. rename La into Wm. pose proof Wm as (g & Ig & _). destruct (Nn g m Ig) as (Lm & _).
    destruct (Sa m (ch_self _ _)) as [_ Q]. specialize (Q t j). rewrite !X'n, A1, A2 in Q by apply Lm. replace (wb L m t j) with true in Q by (symmetry; now apply wb_spec). cbn in Q. injection Q as Q.
    cbn. pose proof (Wl t j m Wm) as Il. apply In_nth_error in Il. destruct Il as (k & K). unfold E' in Q. rewrite !(assign_nth vz _ _ _ k t j Nd K) in *. exact Q.
Qed.

(** The node of a condition or a selector. *)
Lemma nenter_gen k (es : list expr) ch s X C (act : env -> bool) O : (forall y, In y es -> cond_ok ports y) ->
  N0 <= fnext (fxs s) -> clean (cur s) -> Fresh (fxs s) X C -> BallO O (fxs s) X C ->
  exists s1 C1, M_DFA.each (noteReference nm (fun _ => false) None None) (let '(s1, n) := create s k in updateNode s1 n true) (flat_map refs es) = DOk s1 /\
    gle (fxs s) (fxs s1) /\ fnext (fxs s) < fnext (fxs s1) /\
    ext (fnext (fxs s)) X C X C1 /\ Fresh (fxs s1) X C1 /\ BallO (fun n => O n \/ n = fnext (fxs s)) (fxs s1) X C1 /\ clean (cur s1) /\
    anode (cur s1) = Some (fnext (fxs s)) /\ acond (cur s1) = Some (fnext (fxs s)) /\ ctl_edge (acond (cur s)) (fxs s1) (fnext (fxs s)) /\
    (forall v, C1 (fnext (fxs s)) v = if act v then Some (ch v) else None) /\
    forall y t j, In y es -> In (t, j) (reads y) -> pended (fpend (fxs s1)) (fnext (fxs s)) t (Z.of_nat j).
Proof.
  intros Oc L0 Cl Fr Ba.
  pose proof (new_node nm s k true) as Nn. cbv zeta in Nn. destruct (create s k) as [s0 n] eqn:Ec. set (s2 := updateNode s0 n true) in *.
  destruct Nn as (En & Nx & G2 & Cn & Cu). cbn [cur] in Cu. assert (C2 : clean (cur s2)) by (rewrite Cu; exact Cl).
  destruct (read_many ports nm [] n es s2) as (s3 & E3 & C3 & G3 & R3); [now rewrite Cu|apply C2|now apply clean_ok|intros; apply fits_nil|exact Oc|].
  set (C1 := fun k => if Nat.eqb k n then fun v => if act v then Some (ch v) else None else C k).
  assert (G : gle (fxs s) (fxs s3)) by (eapply gle_trans; eauto).
  assert (Nx3 : fnext (fxs s) < fnext (fxs s3)) by (pose proof (gle_next _ _ G3); lia).
  assert (Ne : forall k, k <> n -> C1 k = C k) by (intros k' Nk; unfold C1; destruct (Nat.eqb_spec k' n); [contradiction|reflexivity]).
  rewrite <- En.
  exists s3, C1. split; [exact E3|]. split; [exact G|]. split; [lia|]. split; [|split; [|split; [|split; [|split; [|split; [|split; [|split]]]]]]].
  - intros k' Lk. split; [reflexivity|]. apply Ne. lia.
  - intros k' v Lk. split; [rewrite Ne by lia; apply Fr; lia|apply Fr; lia].
  - intros k' Lk No. destruct (Nat.lt_ge_cases k' n) as [Lk'|Lk'].
    + apply (Bd_fle (fxs s) (fxs s3) X C X C1 k'); [apply G| |apply Ba; [lia|tauto]]. intros k2 Lk2. split; [reflexivity|]. apply Ne. lia.
    + intros v1 v2 _ _. unfold same. rewrite Ne by tauto. destruct (Fr k' v1) as [Q1 Q2]; [lia|]. destruct (Fr k' v2) as [Q3 Q4]; [lia|].
      split; [congruence|]. intros t j. now rewrite Q2, Q4.
  - rewrite C3. exact C2.
  - rewrite C3, Cu. reflexivity.
  - rewrite C3, Cu. reflexivity.
  - eapply ctl_gle; [exact G3|exact Cn].
  - intros v. unfold C1. now rewrite Nat.eqb_refl.
  - intros y t j Iy I. destruct (R3 y t j Iy I) as [R _]. apply R. intros m. now apply clean_no.
Qed.
Lemma nclose_node (es : list expr) ch s f X C X' C' (act : env -> bool) : ctl (fxs s) (cur s) C act ->
  ctl_edge (acond (cur s)) f (fnext (fxs s)) -> (forall y, In y es -> cond_ok ports y) ->
  (forall y t j, In y es -> In (t, j) (reads y) -> pended (fpend f) (fnext (fxs s)) t (Z.of_nat j)) ->
  (forall v1 v2, (forall y, In y es -> eval vz v1 y = eval vz v2 y) -> ch v1 = ch v2) ->
  ext (fnext (fxs s)) X C X' C' -> (forall v, C' (fnext (fxs s)) v = if act v then Some (ch v) else None) -> (forall v t j, X' (fnext (fxs s)) v t j = None) ->
  Bd f X' C' (fnext (fxs s)).
Proof.
  intros Ct Cn Oc Rn Hch Ex Cv Xn v1 v2 H1 H2. set (n := fnext (fxs s)) in *.
  assert (H1' : forall m, N0 <= m < n -> joined (fdeps f) m n -> same X C m v1 v2).
  { intros m Lm J. apply (same_ext n X C X' C'); [exact Ex|lia|]. apply H1; auto. }
  pose proof (act_same _ _ _ _ X C act n v1 v2 Ct Cn H1') as Ea.
  split; [|intros t j; now rewrite !Xn]. rewrite !Cv, Ea. destruct (act v2) eqn:A2; [|reflexivity]. f_equal. apply Hch.
  intros y Iy. apply reads_eval. intros t j J. apply H2; [now apply (Rn y)|]. intros p Ip. eapply (proj2 (proj2 (Oc y Iy))); eauto.
Qed.
Lemma nenter_block c s X C (act : env -> bool) O : cond_ok ports c ->
  N0 <= fnext (fxs s) -> clean (cur s) -> Fresh (fxs s) X C -> BallO O (fxs s) X C -> ctl (fxs s) (cur s) C act ->
  exists s1 C1, enter_if nm (fun _ => false) None s 0 None (refs c) = DOk s1 /\ gle (fxs s) (fxs s1) /\ fnext (fxs s) < fnext (fxs s1) /\
    ext (fnext (fxs s)) X C X C1 /\ Fresh (fxs s1) X C1 /\ BallO O (fxs s1) X C1 /\ clean (cur s1) /\
    acond (cur s1) = Some (fnext (fxs s)) /\ (forall v, C1 (fnext (fxs s)) v = if act v then Some (sel (istrue (eval vz v c))) else None) /\
    ctl_edge (acond (cur s)) (fxs s1) (fnext (fxs s)).
Proof.
  intros Oc L0 Cl Fr Ba Ct. unfold enter_if.
  assert (One : forall y, In y [c] -> y = c) by (intros y [->|[]]; reflexivity).
  destruct (nenter_gen (KCond 0) [c] (fun v => sel (istrue (eval vz v c))) s X C act O) as (s1 & C1 & E1 & G1 & L1 & X1 & F1 & B1 & Cl1 & An & Ac & Ce & Cv & R1); auto.
  { intros y Iy. now rewrite (One y Iy). }
  cbn [flat_map] in E1. rewrite app_nil_r in E1. exists s1, C1. split; [exact E1|]. split; [exact G1|]. split; [exact L1|]. split; [exact X1|]. split; [exact F1|].
  split; [|auto]. apply (open_close ports nm N0 O (fnext (fxs s))); [exact B1|].
  apply (nclose_node [c] (fun v => sel (istrue (eval vz v c))) s (fxs s1) X C X C1 act); auto.
  - intros y Iy. now rewrite (One y Iy).
  - intros v1 v2 H. now rewrite (H c (or_introl eq_refl)).
  - intros v t j. now apply Fr.
Qed.

Lemma Fresh_fle f f' (X : ghX) (C : ghC) : fle f f' -> Fresh f X C -> Fresh f' X C.
Proof. intros (L & _) Fr n v Ln. apply Fr. exact (Nat.le_trans _ _ _ L Ln). Qed.
(** [rem]: none of the items so far is selected. *)
Notation cnbw := (cnb_writes (fun _ => false)).
Notation cpick := (cpick vz hits).
Notation hit := (hit vz hits).
Definition goalNI (r : pcl V) : Prop := csingle r -> forall s a0 acc n j X C (rem : env -> bool) O us q,
  nitems_ok r -> proc_items r = Some q -> N0 <= n < fnext (fxs s) -> clean a0 -> Fresh (fxs s) X C -> BallO O (fxs s) X C ->
  anode a0 = Some n -> acond a0 = Some n ->
  (forall v, rem v = true -> C n v = Some (cpick r (us v) v j)) -> (forall v i, rem v = false -> C n v = Some i -> i < j) ->
  acc = unreachableState \/ clean acc ->
  exists s' X' C' F, exec_items nm (fun _ => false) None s a0 acc q = DOk s' /\ NResG O (fun v e => cnrun r (us v) v e) (cnbw q) (cmay r) (cdecided r) (acond a0) s s' X C X' C' rem F /\
    forall y t j, In y (cexprs r) -> In (t, j) (reads y) -> pended (fpend (fxs s')) n t (Z.of_nat j).
Lemma nitem_join s1 acc : acc = unreachableState \/ clean acc -> clean (cur s1) ->
  exists s2, joinState (with_cur s1 acc) (cur s1) = DOk s2 /\ clean (cur s2) /\ gle (fxs s1) (fxs s2).
Proof.
  intros [->|Ca] Cl.
  - unfold joinState. cbn [with_cur cur areach unreachableState]. rewrite (proj2 Cl). cbn [Bool.eqb negb].
    eexists. split; [reflexivity|]. split; [exact Cl|apply gle_refl].
  - destruct (join_clean (with_cur s1 acc) (cur s1) Ca Cl) as (s2 & E & C2 & G). exists s2. auto.
Qed.
Lemma assign_eq : forall bs xs (e1 e2 : env) t j, e1 t j = e2 t j -> assign vz bs xs e1 t j = assign vz bs xs e2 t j.
Proof. induction bs as [|[t0 j0] bs IH]; intros xs e1 e2 t j E; [exact E|]. cbn. destruct (_ && _); auto. Qed.
Lemma const_same p v1 v2 (e1 e2 : env) t j : constant p -> e1 t j = e2 t j -> nrun p v1 e1 t j = nrun p v2 e2 t j.
Proof.
  destruct p; cbn; try tauto. intros K E. rewrite (reads_eval V vz v1 v2) by (intros t' j' I; destruct (K _ _ I)). now apply assign_eq.
Qed.
(** A choice between two parts that both runs make alike. *)
Lemma choice (b1 b2 : bool) (x1 y1 x2 y2 : V) : b1 = b2 -> (b1 = true -> x1 = x2) -> (b1 = false -> y1 = y2) -> (if b1 then x1 else y1) = (if b2 then x2 else y2).
Proof. intros -> A B. destruct b2; auto. Qed.
Lemma if_at (b : bool) (e1 e2 : env) t j : (if b then e1 else e2) t j = if b then e1 t j else e2 t j.
Proof. now destruct b. Qed.
Lemma nsingle_block : forall p, single p -> goalN p.
Proof.
  induction p as [|bl l r|p IHp q IHq|c t IHt|c t IHt e IHe|c its IHi|p IHp|xs p IHp r IHr] using pst_mind with (P0 := goalNI); intros Sg.
  - intros s X C act O q' Ok Eq L0 Cl Fr Ba Ct. cbn in Eq. injection Eq as <-. exists s, X, C, []. split; [reflexivity|]. split; auto.
    + apply fle_refl.
    + intros n Ln. auto.
    + now rewrite app_nil_r.
    + intros t b m [].
    + intros t j (b & m & [] & _).
    + intros t b m c [].
  - apply nasg_block.
  - destruct Sg.
  - intros s X C act O q' Ok Eq L0 Cl Fr Ba Ct. cbn [M_Proc.proc_stmt] in Eq. destruct (proc_stmt t) as [qt|] eqn:Et; [|discriminate]. cbn in Eq. injection Eq as <-. destruct Ok as [Oc Ot].
    destruct (nenter_block c s X C act O Oc) as (s1 & C1 & E1 & G1 & L1 & X1 & F1 & B1 & Cl1 & A1 & Cv & Ce); auto.
    set (tr := fun v => istrue (eval vz v c)). set (n := fnext (fxs s)) in *.
    destruct (IHt Sg s1 X C1 (fun v => act v && tr v) O qt Ot Et) as (s2 & X2 & C2 & F & E2 & [Cl2 G2 Ex2 Fr2 B2 Fl2 Lt2 Wr2 Out2 May2 Ctl2 Val2]); auto; [lia| |].
    { right. exists n, (fun o => match o with Some b => b =? 1 | None => false end). split; [exact A1|]. split; [lia|]. intros v. rewrite Cv. fold (tr v). destruct (act v), (tr v); reflexivity. }
    destruct (join_clean s2 (cur s1) Cl2 Cl1) as (s3 & E3 & Cl3 & G3).
    exists s3, X2, C2, F. cbn [M_DFA.exec]. rewrite E1. cbn [dbind branch_in]. replace (with_cur s1 (cur s1)) with s1 by now destruct s1. rewrite E2. cbn [dbind]. split; [exact E3|].
    pose proof (proj1 G3) as (Le3 & _). pose proof G2 as (Le2 & _).
    split; auto.
    + eapply fle_trans; [apply G1|]. eapply fle_trans; [apply G2|apply G3].
    + eapply ext_tr; [|exact X1|exact Ex2]; lia.
    + eapply Fresh_fle; [apply G3|exact Fr2].
    + eapply Ball_fle; [apply G3|exact Fr2|exact B2].
    + rewrite (proj2 G3), Fl2, (proj2 G1). reflexivity.
    + intros t0 b m I. specialize (Lt2 t0 b m I). lia.
    + intros v e t0 j Nc. cbn. destruct (istrue _); [now apply Out2|reflexivity].
    + intros t0 b m c0 I Q Lc. eapply chain_trans; [eapply chain_incl; [apply G3|]; apply (Ctl2 t0 b m n I A1); lia|].
      eapply ch_back; [constructor|lia|]. eapply joined_incl; [|apply (Ce c0 Q)]. destruct G2 as (_ & _ & D2 & _), G3 as [(_ & _ & D3 & _) _]. eapply incl_tran; eauto.
    + intros v1 v2 e1 e2 t0 j m Av1 Av2 De La E Sa. cbn. rewrite !if_at. destruct (lastF_in _ _ _ _ La) as (b & Ib & _).
      pose proof (Lt2 _ _ _ Ib) as Lm. assert (Sa' : sames (fxs s2) X2 C2 m v1 v2) by (eapply sames_fle; [apply G3|apply ext_refl|exact (proj2 Lm)|exact Sa]).
      fold (tr v1) (tr v2). apply choice; [|intros T|auto].
      * destruct (Sa' n) as [Q _]; [apply (Ctl2 t0 b m n Ib A1); lia|]. rewrite (proj2 (Ex2 n ltac:(lia))), !Cv, Av1, Av2 in Q. fold (tr v1) (tr v2) in Q. destruct (tr v1), (tr v2); auto; discriminate Q.
      * apply (Val2 v1 v2 e1 e2 t0 j m); auto; [now rewrite Av1|]. rewrite Av2. cbn.
        destruct (Sa' n) as [Q _]; [apply (Ctl2 t0 b m n Ib A1); lia|]. rewrite (proj2 (Ex2 n ltac:(lia))), !Cv, Av1, Av2 in Q. fold (tr v1) (tr v2) in Q. destruct (tr v1), (tr v2); auto; discriminate.
  - intros s X C act O q' Ok Eq L0 Cl Fr Ba Ct. cbn [M_Proc.proc_stmt] in Eq. destruct (proc_stmt t) as [qt|] eqn:Et; [|discriminate]. destruct (proc_stmt e) as [qe|] eqn:Ee; [|discriminate]. injection Eq as <-. destruct Ok as (Oc & Ot & Oe). destruct Sg as [Sg1 Sg2].
    destruct (nenter_block c s X C act O Oc) as (s1 & C1 & E1 & G1 & L1 & X1 & F1 & B1 & Cl1 & A1 & Cv & Ce); auto.
    set (tr := fun v => istrue (eval vz v c)). set (n := fnext (fxs s)) in *.
    destruct (IHt Sg1 s1 X C1 (fun v => act v && tr v) O qt Ot Et) as (s2 & X2 & C2 & F & E2 & [Cl2 G2 Ex2 Fr2 B2 Fl2 Lt2 Wr2 Out2 May2 Ctl2 Val2]); auto; [lia| |].
    { right. exists n, (fun o => match o with Some b => b =? 1 | None => false end). split; [exact A1|]. split; [lia|]. intros v. rewrite Cv. fold (tr v). destruct (act v), (tr v); reflexivity. }
    pose proof G2 as (Le2 & _).
    destruct (IHe Sg2 (with_cur s2 (cur s1)) X2 C2 (fun v => act v && negb (tr v)) O qe Oe Ee) as (s3 & X3 & C3 & F' & E3 & [Cl3 G3 Ex3 Fr3 B3 Fl3 Lt3 Wr3 Out3 May3 Ctl3 Val3]); auto; cbn [with_cur fxs cur] in *; [lia| |].
    { right. exists n, (fun o => match o with Some b => b =? 0 | None => false end). split; [exact A1|]. split; [lia|]. intros v. rewrite (proj2 (Ex2 n ltac:(lia))), Cv. fold (tr v). destruct (act v), (tr v); reflexivity. }
    pose proof G3 as (Le3 & _).
    destruct (join_clean s3 (cur s2) Cl3 Cl2) as (s4 & E4 & Cl4 & G4). pose proof (proj1 G4) as (Le4 & _).
    exists s4, X3, C3, (F ++ F'). cbn [M_DFA.exec]. rewrite E1. cbn [dbind branch_in]. replace (with_cur s1 (cur s1)) with s1 by now destruct s1. rewrite E2. cbn [dbind]. rewrite E3. cbn [dbind]. split; [exact E4|].
    split; auto.
    + eapply fle_trans; [apply G1|]. eapply fle_trans; [apply G2|]. eapply fle_trans; [apply G3|apply G4].
    + eapply ext_tr; [|exact X1|eapply ext_tr; [|exact Ex2|exact Ex3]]; lia.
    + eapply Fresh_fle; [apply G4|exact Fr3].
    + eapply Ball_fle; [apply G4|exact Fr3|exact B3].
    + rewrite (proj2 G4), Fl3, Fl2, (proj2 G1). now rewrite app_assoc.
    + intros t0 b m I. apply in_app_or in I. destruct I as [I|I]; [specialize (Lt2 t0 b m I)|specialize (Lt3 t0 b m I)]; lia.
    + cbn. rewrite !map_app. now rewrite Wr2, Wr3.
    + intros v e0 t0 j Nc. cbn. destruct (istrue _); [apply Out2|apply Out3]; intros Q; apply Nc, cov_app; auto.
    + intros t0 j Q. apply cov_app in Q. destruct Q as [Q|Q]; [left|right]; auto.
    + intros t0 b m c0 I Q Lc. destruct G2 as (_ & _ & D2 & _), G3 as (_ & _ & D3 & _), G4 as [(_ & _ & D4 & _) _].
      eapply (chain_trans _ m n c0); [|eapply ch_back; [constructor|lia|]; eapply joined_incl; [|apply (Ce c0 Q)]; eapply incl_tran; [exact D2|]; eapply incl_tran; eauto].
      apply in_app_or in I. destruct I as [I|I].
      * eapply chain_incl; [eapply incl_tran; [exact D3|exact D4]|]. apply (Ctl2 t0 b m n I A1). lia.
      * eapply chain_incl; [exact D4|]. apply (Ctl3 t0 b m n I A1). lia.
    + intros v1 v2 e1 e2 t0 j m Av1 Av2 De La E Sa. cbn. rewrite !if_at. fold (tr v1) (tr v2).
      assert (Lm : m < fnext (fxs s3)) by (apply lastF_in in La; destruct La as (b & I & _); apply in_app_or in I; destruct I as [I|I]; [specialize (Lt2 _ _ _ I)|specialize (Lt3 _ _ _ I)]; lia).
      assert (Sa3 : sames (fxs s3) X3 C3 m v1 v2) by (eapply sames_fle; [apply G4|apply ext_refl|exact Lm|exact Sa]).
      assert (Sa2 : m < fnext (fxs s2) -> sames (fxs s2) X2 C2 m v1 v2) by (intros L; eapply sames_fle; [exact G3|exact Ex3|exact L|exact Sa3]).
      assert (T : tr v1 = tr v2).
      { assert (Q : same X3 C3 n v1 v2).
        { apply Sa3. apply lastF_in in La. destruct La as (b & I & _). apply in_app_or in I. destruct I as [I|I]; [eapply chain_incl; [apply G3|]; apply (Ctl2 t0 b m n I A1)|apply (Ctl3 t0 b m n I A1)]; lia. }
        destruct Q as [Q _]. rewrite (proj2 (Ex3 n ltac:(lia))), (proj2 (Ex2 n ltac:(lia))), !Cv, Av1, Av2 in Q. fold (tr v1) (tr v2) in Q. destruct (tr v1), (tr v2); auto; discriminate Q. }
      apply choice; [exact T| |]; intros T1; apply lastF_app in La; destruct La as [La|[La Nc]].
      * pose proof (May3 _ _ (lastF_cov _ _ _ _ La)) as M. destruct De as [[_ N]|[[N|K] _]]; [contradiction| |now apply const_same].
        rewrite !Out2; auto.
      * destruct (lastF_in _ _ _ _ La) as (b & Ib & _). pose proof (Lt2 _ _ _ Ib). destruct De as [[Dt _]|[[N|K] _]]; [|destruct N; apply May2; eapply lastF_cov; eauto|now apply const_same].
        apply (Val2 v1 v2 e1 e2 t0 j m); auto; [now rewrite Av1|rewrite Av2; rewrite <- T; exact T1|apply Sa2; lia].
      * pose proof (May3 _ _ (lastF_cov _ _ _ _ La)) as M. destruct De as [[_ N]|[_ De]]; [contradiction|].
        apply (Val3 v1 v2 e1 e2 t0 j m); auto; [now rewrite Av1, T1|rewrite Av2; rewrite <- T, T1; reflexivity].
      * rewrite !Out3; auto.
  - intros s X C act O q' Ok Eq L0 Cl Fr Ba Ct. rewrite proc_case in Eq. destruct (proc_items its) as [qi|] eqn:Ei; [|discriminate]. cbn in Eq. injection Eq as <-. destruct Ok as [Oc Oi].
    set (ch := fun v => cpick its (eval vz v c) v 0).
    assert (One : forall y, In y [c] -> y = c) by (intros y [->|[]]; reflexivity).
    destruct (nenter_gen (KCase 0) [c] ch s X C act O) as (s1 & C1 & E1 & G1 & L1 & X1 & F1 & B1 & Cl1 & An & Ac & Ce & Cv & R1); auto.
    { intros y Iy. now rewrite (One y Iy). }
    cbn [flat_map] in E1. rewrite app_nil_r in E1. set (n := fnext (fxs s)) in *.
    destruct (IHi Sg s1 (cur s1) unreachableState n 0 X C1 act (fun k => O k \/ k = n) (fun v => eval vz v c) qi)
      as (s2 & X2 & C2 & F & E2 & [Cl2 G2 Ex2 Fr2 B2 Fl2 Lt2 Wr2 Out2 May2 Ctl2 Val2] & R2); auto.
    { intros v A. now rewrite Cv, A. } { intros v i A Q. rewrite Cv, A in Q. discriminate. }
    exists s2, X2, C2, F. cbn [M_DFA.exec]. unfold enter_case.
    replace (let '(s0, n0) := create s (KCase 0) in M_DFA.each (noteReference nm (fun _ => false) None None) (updateNode s0 n0 true) (refs c)) with (DOk s1) by (rewrite <- E1; reflexivity).
    cbn [dbind]. split; [exact E2|]. pose proof G2 as (Le2 & _ & Dd2 & Pp2).
    assert (Ex : ext n X C X2 C2) by (eapply ext_tr; [|exact X1|exact Ex2]; lia).
    split; auto.
    + eapply fle_trans; [apply G1|exact G2].
    + apply (open_close ports nm N0 O n); [exact B2|]. apply (nclose_node (c :: cexprs its) ch s (fxs s2) X C X2 C2 act); auto.
      * intros c0 Q. eapply joined_incl; [exact Dd2|]. now apply Ce.
      * intros y [<-|I]; [exact Oc|]. clear -Oi I. revert Oi I. revert its. fix IH 1. intros [p|xs p r]; [intros _ []|]. cbn. intros (A & _ & B) I. apply in_app_or in I. destruct I as [I|I]; [auto|now apply (IH r)].
      * intros y t j [<-|I] J; [eapply pended_incl; [exact Pp2|]; apply (R1 c); [now left|exact J]|]. now apply (R2 y).
      * intros v1 v2 H. unfold ch. rewrite (H c (or_introl eq_refl)). apply cpick_eq. intros y I. apply H. now right.
      * intros v. fold n. rewrite (proj2 (Ex2 n L1)). apply Cv.
      * intros v t j. fold n. rewrite (proj1 (Ex2 n L1)). now apply Fr.
    + rewrite Fl2, (proj2 G1). reflexivity.
    + intros t b m I. specialize (Lt2 t b m I). lia.
    + intros t b m c0 I Q Lc. eapply chain_trans; [apply (Ctl2 t b m n I Ac); lia|]. eapply ch_back; [constructor|lia|]. eapply joined_incl; [exact Dd2|]. now apply Ce.
  - intros s a0 acc n j X C rem O us q' Ok Eq L0 Cl Fr Ba An Ac Cr Cn Hacc. rewrite proc_default in Eq.
    destruct (proc_stmt p) as [qp|] eqn:Ep; [|discriminate]. cbn in Eq. injection Eq as <-.
    destruct (IHp Sg (with_cur s a0) X C rem O qp Ok Ep) as (s1 & X1 & C1 & F & E1 & [Cl1 G1 Ex1 Fr1 B1 Fl1 Lt1 Wr1 Out1 May1 Ctl1 Val1]); auto; cbn [with_cur fxs cur] in *; [lia| |].
    { right. exists n, (fun o => match o with Some i => i =? j | None => false end). split; [exact Ac|]. split; [exact L0|]. intros v. destruct (rem v) eqn:R.
      - rewrite (Cr v R). cbn. now rewrite Nat.eqb_refl.
      - destruct (C n v) as [i|] eqn:Q; [|reflexivity]. specialize (Cn v i R Q). symmetry. apply Nat.eqb_neq. lia. }
    destruct (nitem_join s1 acc Hacc Cl1) as (s2 & E2 & Cl2 & G2). pose proof (proj1 G2) as (Le2 & _).
    exists s2, X1, C1, F. rewrite items_default, E1. cbn [dbind]. split; [exact E2|]. split; [|intros y t j0 []].
    split; auto.
    + eapply fle_trans; [exact G1|apply G2].
    + eapply Fresh_fle; [apply G2|exact Fr1].
    + eapply Ball_fle; [apply G2|exact Fr1|exact B1].
    + rewrite (proj2 G2). exact Fl1.
    + intros t b m I. specialize (Lt1 t b m I). lia.
    + intros t b m c0 I Q Lc. eapply chain_incl; [apply G2|]. now apply (Ctl1 t b m c0 I Q).
    + intros v1 v2 e1 e2 t j0 m A1 A2 De La E Sa. apply (Val1 v1 v2 e1 e2 t j0 m); auto. destruct (lastF_in _ _ _ _ La) as (b & Ib & _).
      eapply sames_fle; [apply G2|apply ext_refl|apply (Lt1 _ _ _ Ib)|exact Sa].
  - destruct Sg as [Sg1 Sg2]. intros s a0 acc n j X C rem O us q' Ok Eq L0 Cl Fr Ba An Ac Cr Cn Hacc. rewrite proc_item in Eq.
    destruct (proc_stmt p) as [qp|] eqn:Ep; [|discriminate]. destruct (proc_items r) as [qr|] eqn:Er; [|discriminate]. injection Eq as <-.
    destruct Ok as (Ox & Op & Or). cbn [P_Proc2.cpick] in Cr.
    destruct (read_many ports nm [] n xs (with_cur s a0)) as (s1 & E1 & C1 & G1 & R1); auto; [apply Cl|now apply clean_ok|intros; apply fits_nil|]. cbn [with_cur fxs cur] in C1, G1, R1.
    pose proof (gle_next _ _ G1) as Le1. set (ht := fun v => hit xs (us v) v).
    assert (Fr1 : Fresh (fxs s1) X C) by (eapply Fresh_fle; [apply G1|exact Fr]).
    destruct (IHp Sg1 s1 X C (fun v => rem v && ht v) O qp Op Ep) as (s2 & X2 & C2 & F & E2 & [Cl2 G2 Ex2 Fr2 B2 Fl2 Lt2 Wr2 Out2 May2 Ctl2 Val2]); auto; [lia|now rewrite C1|eapply Ball_fle; [apply G1|exact Fr|exact Ba]| |].
    { right. exists n, (fun o => match o with Some i => i =? j | None => false end). rewrite C1. split; [exact Ac|]. split; [lia|]. intros v. destruct (rem v) eqn:R.
      - rewrite (Cr v R). fold (ht v). destruct (ht v); [now rewrite Nat.eqb_refl|]. symmetry. apply Nat.eqb_neq.
        assert (Lp : forall x u e k, k <= cpick x u e k) by (clear; fix IH 1; intros [p|xs p r] u e k; cbn; [lia|]; destruct (hit xs u e); [lia|]; specialize (IH r u e (S k)); lia).
        specialize (Lp r (us v) v (S j)). lia.
      - destruct (C n v) as [i|] eqn:Q; [|reflexivity]. specialize (Cn v i R Q). symmetry. apply Nat.eqb_neq. lia. }
    pose proof G2 as (Le2 & _). destruct (nitem_join s2 acc Hacc Cl2) as (s3 & E3 & Cl3 & G3). pose proof (proj1 G3) as (Le3 & _).
    assert (Ex02 : ext (fnext (fxs s)) X C X2 C2) by (intros k Lk; apply Ex2; lia).
    destruct (IHr Sg2 s3 a0 (cur s3) n (S j) X2 C2 (fun v => rem v && negb (ht v)) O us qr) as (s4 & X4 & C4 & F' & E4 & [Cl4 G4 Ex4 Fr4 B4 Fl4 Lt4 Wr4 Out4 May4 Ctl4 Val4] & R4); auto.
    { lia. } { eapply Fresh_fle; [apply G3|exact Fr2]. } { eapply Ball_fle; [apply G3|exact Fr2|exact B2]. }
    { intros v Q. apply andb_true_iff in Q. destruct Q as [Q1 Q2]. apply negb_true_iff in Q2. rewrite (proj2 (Ex02 n (proj2 L0))), (Cr v Q1). fold (ht v). now rewrite Q2. }
    { intros v i Q Q2. rewrite (proj2 (Ex02 n (proj2 L0))) in Q2. destruct (rem v) eqn:R; [|specialize (Cn v i R Q2); lia]. rewrite (Cr v R) in Q2. fold (ht v) in Q2.
      cbn in Q. apply negb_false_iff in Q. rewrite Q in Q2. injection Q2 as <-. lia. }
    pose proof G4 as (Le4 & _).
    exists s4, X4, C4, (F ++ F'). rewrite items_cons, E1. cbn [dbind]. rewrite E2. cbn [dbind]. rewrite E3. cbn [dbind]. split; [exact E4|]. split.
    + split; auto.
      * eapply fle_trans; [apply G1|]. eapply fle_trans; [apply G2|]. eapply fle_trans; [apply G3|apply G4].
      * eapply ext_tr; [|exact Ex02|exact Ex4]; lia.
      * rewrite Fl4, (proj2 G3), Fl2, (proj2 G1). now rewrite app_assoc.
      * intros t0 b m I. apply in_app_or in I. destruct I as [I|I]; [specialize (Lt2 t0 b m I)|specialize (Lt4 t0 b m I)]; lia.
      * cbn. rewrite !map_app. now rewrite Wr2, Wr4.
      * intros v e0 t0 j0 Nc. cbn. destruct (existsb _ _); [apply Out2|apply Out4]; intros Q; apply Nc, cov_app; auto.
      * intros t0 j0 Q. apply cov_app in Q. destruct Q as [Q|Q]; [left|right]; auto.
      * intros t0 b m c0 I Q Lc. destruct G3 as [(_ & _ & D3 & _) _]. destruct G4 as (_ & _ & D4 & _). apply in_app_or in I. destruct I as [I|I].
        -- eapply chain_incl; [eapply incl_tran; [exact D3|exact D4]|]. apply (Ctl2 t0 b m c0 I); [now rewrite C1|lia].
        -- apply (Ctl4 t0 b m c0 I Q). lia.
      * intros v1 v2 e1 e2 t0 j0 m Av1 Av2 De La E Sa. cbn. rewrite !if_at. change (existsb (fun y => hits (us v1) (eval vz v1 y)) xs) with (ht v1). change (existsb (fun y => hits (us v2) (eval vz v2 y)) xs) with (ht v2).
        assert (Sa2 : m < fnext (fxs s2) -> sames (fxs s2) X2 C2 m v1 v2).
        { intros L. eapply sames_fle; [apply G3|apply ext_refl|exact L|]. eapply sames_fle; [exact G4|exact Ex4| |exact Sa]. lia. }
        assert (T : ht v1 = ht v2).
        { assert (Q : same X4 C4 n v1 v2).
          { apply Sa. apply lastF_in in La. destruct La as (b & I & _). apply in_app_or in I. destruct I as [I|I].
            - destruct G3 as [(_ & _ & D3 & _) _]. destruct G4 as (_ & _ & D4 & _). eapply chain_incl; [eapply incl_tran; [exact D3|exact D4]|]. apply (Ctl2 t0 b m n I); [now rewrite C1|lia].
            - apply (Ctl4 t0 b m n I Ac). lia. }
          destruct Q as [Q _]. rewrite (proj2 (Ex4 n ltac:(lia))), (proj2 (Ex02 n (proj2 L0))), (Cr v1 Av1), (Cr v2 Av2) in Q. fold (ht v1) (ht v2) in Q. injection Q as Q.
          assert (Lp : forall x u e k, k <= cpick x u e k) by (clear; fix IH 1; intros [p|xs p r] u e k; cbn; [lia|]; destruct (hit xs u e); [lia|]; specialize (IH r u e (S k)); lia).
          pose proof (Lp r (us v1) v1 (S j)). pose proof (Lp r (us v2) v2 (S j)). destruct (ht v1), (ht v2); auto; lia. }
        apply choice; [exact T| |]; intros T1; apply lastF_app in La; destruct La as [La|[La Nc]].
        -- pose proof (May4 _ _ (lastF_cov _ _ _ _ La)) as M. destruct De as [[_ N]|[[N|K] _]]; [contradiction| |now apply const_same].
           rewrite !Out2; auto.
        -- destruct (lastF_in _ _ _ _ La) as (b & Ib & _). pose proof (Lt2 _ _ _ Ib). destruct De as [[Dt _]|[[N|K] _]]; [|destruct N; apply May2; eapply lastF_cov; eauto|now apply const_same].
           apply (Val2 v1 v2 e1 e2 t0 j0 m); auto; [now rewrite Av1|rewrite Av2; rewrite <- T; exact T1|apply Sa2; lia].
        -- pose proof (May4 _ _ (lastF_cov _ _ _ _ La)) as M. destruct De as [[_ N]|[_ De]]; [contradiction|].
           apply (Val4 v1 v2 e1 e2 t0 j0 m); auto; [now rewrite Av1, T1|rewrite Av2; rewrite <- T, T1; reflexivity].
        -- assert (N4 : forall v e, cnrun r (us v) v e t0 j0 = e t0 j0) by (intros v e; now apply Out4). now rewrite !N4.
    + intros y t0 j0 I J. cbn in I. apply in_app_or in I. destruct I as [I|I]; [|now apply (R4 y)].
      destruct (R1 y t0 j0 I J) as [R _]. destruct G2 as (_ & _ & _ & P2). destruct G3 as [(_ & _ & _ & P3) _]. destruct G4 as (_ & _ & _ & P4).
      eapply pended_incl; [exact P4|]. eapply pended_incl; [exact P3|]. eapply pended_incl; [exact P2|]. apply R. intros m. now apply clean_no.
Qed.
Lemma ntop_block : forall p, top p -> forall s X C O q, nstmt_ok p -> proc_stmt p = Some q ->
  N0 <= fnext (fxs s) -> clean (cur s) -> Fresh (fxs s) X C -> BallO O (fxs s) X C ->
  exists s' X' C' F, exec s q = DOk s' /\ NResG O (nrun p) (nbw q) (may p) (decided p) None s s' X C X' C' always F.
Proof.
  induction p as [|bl l r|p IHp q IHq|c t IHt|c t IHt e IHe|c its]; intros Sg s X C O q' Ok Eq L0 Cl Fr Ba;
    try (destruct (nsingle_block _ Sg s X C always O q' Ok Eq L0 Cl Fr Ba) as (s' & X' & C' & F & Ex & []); [left; reflexivity|]; exists s', X', C', F; split; [exact Ex|]; split; auto; discriminate).
  cbn [M_Proc.proc_stmt] in Eq. destruct (proc_stmt p) as [q1|] eqn:E1; [|discriminate]. destruct (proc_stmt q) as [q2|] eqn:E2; [|discriminate]. injection Eq as <-.
  destruct Ok as [Op Oq]. destruct Sg as [S1 S2].
  destruct (IHp S1 s X C O q1) as (s1 & X1 & C1 & F1 & Ex1 & [Cl1 G1 Xe1 Fr1 B1 Fl1 Lt1 Wr1 Out1 May1 Ctl1 Val1]); auto. pose proof G1 as (Le1 & _).
  destruct (IHq S2 s1 X1 C1 O q2) as (s2 & X2 & C2 & F2 & Ex2 & [Cl2 G2 Xe2 Fr2 B2 Fl2 Lt2 Wr2 Out2 May2 Ctl2 Val2]); auto; [lia|]. pose proof G2 as (Le2 & _).
  exists s2, X2, C2, (F1 ++ F2). cbn [M_DFA.exec]. rewrite Ex1. cbn [dbind]. split; [exact Ex2|]. split; auto.
  - eapply fle_trans; eauto.
  - eapply ext_tr; [|exact Xe1|exact Xe2]; lia.
  - rewrite Fl2, Fl1. now rewrite app_assoc.
  - intros t b m I. apply in_app_or in I. destruct I as [I|I]; [specialize (Lt1 t b m I)|specialize (Lt2 t b m I)]; lia.
  - cbn. rewrite !map_app. now rewrite Wr1, Wr2.
  - intros v e t j Nc. cbn. rewrite Out2, Out1; auto; intros Q; apply Nc, cov_app; auto.
  - intros t j Q. apply cov_app in Q. destruct Q as [Q|Q]; [left|right]; auto.
  - discriminate.
  - intros v1 v2 e1 e2 t j m _ _ De La E Sa. cbn. apply lastF_app in La. destruct La as [La|[La Nc]].
    + pose proof (May2 _ _ (lastF_cov _ _ _ _ La)) as M. destruct De as [[_ N]|[Kp De]]; [contradiction|].
      apply (Val2 v1 v2 _ _ t j m); auto. destruct Kp as [N|K]; [|now apply const_same]. rewrite !Out1; auto.
    + rewrite !Out2 by exact Nc. destruct (lastF_in _ _ _ _ La) as (b & Ib & _). pose proof (Lt1 _ _ _ Ib).
      destruct De as [[Dp _]|[[N|K] _]]; [|destruct N; apply May1; eapply lastF_cov; eauto|now apply const_same].
      apply (Val1 v1 v2 e1 e2 t j m); auto. eapply sames_fle; [exact G2|exact Xe2|apply (Lt1 _ _ _ Ib)|exact Sa].
Qed.
End Block.
