(** Proofs about clocked blocks: the State nodes of one block, then of all. *)
From Coq Require Import Sorted Permutation.
From Verif Require Import Base M_Graph M_Range M_Netlist M_DFS M_Path M_Annot M_Interval M_Heap M_Drivers M_Pending M_DFA M_Builder M_Slice M_Port M_Flow M_Proc
  S_Graph S_Reach S_Netlist S_Annot S_Interval S_Drivers S_Pending S_DFA S_Builder S_Slice S_Port S_Flow S_Proc S_Seq
  P_Graph P_DFS P_Path P_Interval P_Heap P_Drivers P_DriversX P_Annot P_Pending P_Pending2 P_DFA P_DFA2 P_Builder P_Slice P_Slice2 P_Port P_Flow P_Flow2 P_Flow3 P_Flow4 P_Flow5 P_Flow6 P_Flow7 P_Flow8
  P_Proc1 P_Proc2 P_Proc3 P_Seq1.

Notation entries := P_Builder.entries.
(** * finalize *)
Lemma process_ok W : aligned_writes W -> forall F a, (forall t b m, In (t, b, m) F -> inW W t (lower b) (upper b)) -> okA W a ->
  exists a', process_lv a F = DOk a' /\ okA W a' /\
    forall t j m, hasA a' t (Z.of_nat j) m <-> lastF F t j m \/ (~ cov F t j /\ hasA a t (Z.of_nat j) m).
Proof.
  intros A. induction F as [|[[t0 b0] m0] F IH]; intros a Hw Oa; cbn [process_lv].
  - exists a. split; [reflexivity|]. split; [exact Oa|]. intros t j m. split.
    + intros H. right. split; [|exact H]. intros (b & k & [] & _).
    + intros [Q|[_ H]]; [|exact H]. apply lastF_in in Q. destruct Q as (b & [] & _).
  - destruct (track_ok W a t0 b0 [m0] false A Oa (Hw t0 b0 m0 (or_introl eq_refl))) as (a1 & E1 & Oa1 & _ & _ & _ & H1); [discriminate|].
    rewrite E1. cbn [dbind]. destruct (IH a1) as (a' & E' & Oa' & H'); auto; [intros t b m I; eapply Hw; right; exact I|].
    exists a'. split; [exact E'|]. split; [exact Oa'|]. intros t j m. rewrite H', H1, lastF_cons. split.
    + intros [Q|[Nc [(-> & B & [Im|[Q _]])|[Nb Q]]]].
      * auto.
      * left. right. destruct Im as [->|[]]. auto.
      * discriminate Q.
      * right. split; [|exact Q]. intros (b & k & [[= -> -> ->]|I] & B); [tauto|]. apply Nc. exists b, k. auto.
    + intros [[Q|(-> & B & -> & Nc)]|[Nc Q]].
      * auto.
      * right. split; [exact Nc|]. left. cbn. auto.
      * right. split; [intros (b & k & I & B); apply Nc; exists b, k; split; [now right|exact B]|]. right. split; [|exact Q].
        intros [-> B]. apply Nc. exists b0, m0. split; [now left|exact B].
Qed.

(** * Building the State nodes *)
Section States.
Variable nm : nat -> str.
Variable ports : list fport.
Variable width : nat -> Z.
Notation hook := (hookupOutputPort nm (port_refs ports)).
Notation step := (state_step variables nm (port_refs ports) width no_modports).

(** The hook edges of the State nodes; [vt0]: the port nodes. *)
Lemma fold_hooks sens vt0 : forall es s, (forall q, In q ports -> bvt s (fp_id q) = vt0 (fp_id q)) ->
  (forall sy b dl q, In (sy, b, dl) es -> In q ports -> sy <> fp_id q) ->
  forall sy b n, In (sy, b, n) (state_ops (bnext s) es) -> incl (hook vt0 sy b [n]) (bdeps (fold_left (step sens) es s)).
Proof.
  induction es as [|[[sy0 b0] dl0] es IH]; intros s Hv Hn sy b n I; [destruct I|]. cbn [fold_left].
  destruct (step_fields variables nm (port_refs ports) width no_modports sens s sy0 b0 dl0) as (F1 & F2 & F3 & F4 & F5 & F6).
  set (s1 := step sens s (sy0, b0, dl0)) in *. cbn [state_ops] in I. destruct I as [[= <- <- <-]|I].
  - destruct (fold_fields variables nm (port_refs ports) width no_modports sens es s1) as (_ & _ & _ & _ & (ds & ->) & _).
    intros e Ie. apply in_or_app. left. rewrite (hook_same nm ports vt0 (bvt s1)) in Ie.
    + unfold s1. cbn. apply in_or_app. left. apply in_or_app. right. rewrite F3 in Ie. exact Ie.
    + intros p Ip. apply port_refs_in in Ip. destruct Ip as (q & Iq & ->). rewrite F3, <- Hv by exact Iq. unfold vt_insert, upd.
      destruct (Nat.eqb_spec (fp_id q) sy0) as [E|E]; [|reflexivity]. exfalso. exact (Hn sy0 b0 dl0 q (or_introl eq_refl) Iq (eq_sym E)).
  - apply (IH s1); auto.
    + intros q Iq. rewrite F3, <- Hv by exact Iq. unfold vt_insert, upd. destruct (Nat.eqb_spec (fp_id q) sy0) as [E|E]; [|reflexivity].
      exfalso. exact (Hn sy0 b0 dl0 q (or_introl eq_refl) Iq (eq_sym E)).
    + intros sy' b' dl' q I' Iq. eapply Hn; eauto. right. exact I'.
Qed.
End States.

Lemma state_ops_at : forall es n sy b m, In (sy, b, m) (state_ops n es) -> exists pre dl post, es = pre ++ (sy, b, dl) :: post /\ m = n + length pre.
Proof.
  induction es as [|[[sy0 b0] dl0] es IH]; intros n sy b m I; [destruct I|]. cbn in I. destruct I as [[= <- <- <-]|I].
  - exists [], dl0, es. cbn. split; [reflexivity|lia].
  - destruct (IH _ _ _ _ I) as (pre & dl & post & -> & ->). exists ((sy0, b0, dl0) :: pre), dl, post. split; [reflexivity|cbn; lia].
Qed.

Section Main.
Context {V : Type}.
Variable vz : V.
Variable istrue : list V -> bool.
Variable hits : list V -> list V -> bool.
Variable rb : bool.
Variable h : hints.
Variable nm : nat -> str.
Variable ports : list fport.
Variable width : nat -> Z.
Variable conns : list (fconn V).
Variable asgs : list (fasg V).
Notation env := (nat -> nat -> V).
Hypothesis Wf : wf_design vz rb h ports conns asgs.
Notation nstmt_ok := (nstmt_ok vz rb h ports).
Notation nrun := (nrun vz istrue hits).
Notation nbw := (nb_writes (fun _ => false)).
Notation ghX := (nat -> env -> nat -> nat -> option V).
Notation ghC := (nat -> env -> option nat).
Notation hook := (hookupOutputPort nm (port_refs ports)).

(** * Statements *)
Lemma nasg_shape bl l r : nasg_ok vz rb h ports bl l r -> asg_shape vz rb h ports l r.
Proof. intros (_ & A & B & _ & D). split; [exact A|]. split; [exact B|exact D]. Qed.
Lemma nstmt_made : forall p, nstmt_ok p -> exists q, proc_stmt vz rb h p = Some q.
Proof.
  induction p as [|bl l r|p IHp q IHq|c t IHt|c t IHt e IHe|c its IHi|p IHp|xs p IHp r IHr] using pst_mind with (P0 := fun r => nitems_ok vz rb h ports r -> exists q, proc_items vz rb h r = Some q); intros Ok.
  1-5: cbn [proc_stmt].
  6: rewrite proc_case.
  7: rewrite proc_default.
  8: rewrite proc_item.
  - eexists. reflexivity.
  - destruct (asg_segs vz rb h ports nm (w_hints _ _ _ _ _ _ Wf) bl l r (nasg_shape _ _ _ Ok)) as (q & gs & Wa & E & _). eauto.
  - destruct Ok as [O1 O2]. destruct (IHp O1) as (q1 & ->), (IHq O2) as (q2 & ->). eauto.
  - destruct Ok as [O1 O2]. destruct (IHt O2) as (q1 & ->). cbn. eauto.
  - destruct Ok as (O1 & O2 & O3). destruct (IHt O2) as (q1 & ->), (IHe O3) as (q2 & ->). eauto.
  - destruct Ok as [O1 O2]. destruct (IHi O2) as (q1 & ->). cbn. eauto.
  - destruct (IHp Ok) as (q1 & ->). cbn. eauto.
  - destruct Ok as (O1 & O2 & O3). destruct (IHp O2) as (q1 & ->), (IHr O3) as (q2 & ->). eauto.
Qed.
(** A write is part of a variable or select on the left of an assignment. *)
Definition partg (mayp : nat -> nat -> Prop) (t : nat) (w : range) : Prop :=
  exists (lhs : expr V) pt a c, in_driver ports lhs /\ In pt (lpaths lhs) /\ proot pt = Some t /\ lower w = Z.of_nat a /\ upper w = Z.of_nat c /\
    plo pt <= a /\ a <= c /\ c <= phi pt /\ (forall hs d, h t = Some hs -> In d hs -> ~ a < d <= c) /\ forall j, a <= j <= c -> mayp t j.
Notation part p := (partg (may p)).
Lemma part_sub (p p' : nat -> nat -> Prop) t w : (forall j, p t j -> p' t j) -> partg p t w -> partg p' t w.
Proof. intros H (lhs & pt & a & c & A1 & A2 & A3 & A4 & A5 & A6 & A7 & A8 & A9 & A10). exists lhs, pt, a, c. auto 12. Qed.
Lemma nwrites_part : forall p q l t w, nstmt_ok p -> proc_stmt vz rb h p = Some q -> In (l, t, w) (nbw q) -> part p t w.
Proof.
  induction p as [|bl l r|p IHp q IHq|c t IHt|c t IHt e IHe|c its IHi|p IHp|xs p IHp r IHr] using pst_mind with (P0 := fun r => forall q l t w, nitems_ok vz rb h ports r -> proc_items vz rb h r = Some q -> In (l, t, w) (cnb_writes (fun _ => false) q) -> partg (cmay r) t w); intros q' lb t0 w Ok E Iw.
  1-5: cbn [proc_stmt] in E.
  6: rewrite proc_case in E.
  7: rewrite proc_default in E.
  8: rewrite proc_item in E.
  - injection E as <-. destruct Iw.
  - destruct (asg_segs vz rb h ports nm (w_hints _ _ _ _ _ _ Wf) bl l r (nasg_shape _ _ _ Ok)) as (q & gs & Wa & E' & _ & _ & Aw & _ & Hw & _ & (_ & Hi & _) & Hl & _).
    rewrite E in E'. injection E' as <-. destruct (Aw lb t0 w) as (g & Ig & Il); [destruct Ok as [-> _]; exact Iw|]. destruct (Hw t0 _ _ (Hi g t0 w Ig Il)) as (pt & a & c & Ip & Rp & Ea & Ec & L1 & L2 & L3 & Cut).
    exists l, pt, a, c. split; [apply Ok|]. do 8 (split; [assumption|]). intros j Lj. cbn.
    destruct (Hl g t0 (Z.of_nat j) Ig) as (j' & Ej & I'); [exists w; split; [exact Il|]; rewrite P_DFA.bit_lu; lia|]. apply Nat2Z.inj in Ej. now subst j'.
  - destruct Ok as [O1 O2]. destruct (proc_stmt vz rb h p) as [q1|]; [|discriminate]. destruct (proc_stmt vz rb h q) as [q2|]; [|discriminate]. injection E as <-.
    cbn in Iw. apply in_app_or in Iw. destruct Iw as [Iw|Iw]; [apply (part_sub (may p))|apply (part_sub (may q))]; try (intros; cbn; now auto); [eapply IHp|eapply IHq]; eauto.
  - destruct Ok as [O1 O2]. destruct (proc_stmt vz rb h t) as [q1|]; [|discriminate]. injection E as <-. eapply part_sub; [|eapply IHt; eauto]. cbn. auto.
  - destruct Ok as (O1 & O2 & O3). destruct (proc_stmt vz rb h t) as [q1|]; [|discriminate]. destruct (proc_stmt vz rb h e) as [q2|]; [|discriminate]. injection E as <-.
    cbn in Iw. apply in_app_or in Iw. destruct Iw as [Iw|Iw]; [apply (part_sub (may t))|apply (part_sub (may e))]; try (intros; cbn; now auto); [eapply IHt|eapply IHe]; eauto.
  - destruct Ok as [O1 O2]. destruct (proc_items vz rb h its) as [q1|]; [|discriminate]. injection E as <-. eapply IHi; eauto.
  - destruct (proc_stmt vz rb h p) as [q1|]; [|discriminate]. injection E as <-. eapply IHp; eauto.
  - destruct Ok as (O1 & O2 & O3). destruct (proc_stmt vz rb h p) as [q1|]; [|discriminate]. destruct (proc_items vz rb h r) as [q2|]; [|discriminate]. injection E as <-.
    cbn in Iw. apply in_app_or in Iw. destruct Iw as [Iw|Iw]; [apply (part_sub (may p))|apply (part_sub (cmay r))]; try (intros; cbn; now auto); [eapply IHp|eapply IHr]; eauto.
Qed.
Lemma may_write : forall p q t j, nstmt_ok p -> proc_stmt vz rb h p = Some q -> may p t j -> exists l w, In (l, t, w) (nbw q) /\ bit w (Z.of_nat j).
Proof.
  induction p as [|bl l r|p IHp q IHq|c t IHt|c t IHt e IHe|c its IHi|p IHp|xs p IHp r IHr] using pst_mind with (P0 := fun r => forall q t j, nitems_ok vz rb h ports r -> proc_items vz rb h r = Some q -> cmay r t j -> exists l w, In (l, t, w) (cnb_writes (fun _ => false) q) /\ bit w (Z.of_nat j)); intros q' t0 j Ok E M; cbn in M.
  1-5: cbn [proc_stmt] in E.
  6: rewrite proc_case in E.
  7: rewrite proc_default in E.
  8: rewrite proc_item in E.
  - destruct M.
  - destruct (asg_segs vz rb h ports nm (w_hints _ _ _ _ _ _ Wf) bl l r (nasg_shape _ _ _ Ok)) as (q & gs & Wa & E' & _ & Ws & _ & _ & _ & Hg & _).
    rewrite E in E'. injection E' as <-. apply In_nth_error in M. destruct M as (k & K). destruct (Hg k t0 j K) as (g & A & Ig & (w & Iw & B) & _).
    pose proof (Ws g t0 w Ig Iw) as Il. exists 0, w. split; [|exact B]. destruct Ok as [-> _]. exact Il.
  - destruct Ok as [O1 O2]. destruct (proc_stmt vz rb h p) as [q1|]; [|discriminate]. destruct (proc_stmt vz rb h q) as [q2|]; [|discriminate]. injection E as <-.
    destruct M as [M|M]; [destruct (IHp q1 t0 j O1 eq_refl M) as (l & w & I & B)|destruct (IHq q2 t0 j O2 eq_refl M) as (l & w & I & B)]; exists l, w; (split; [cbn; apply in_or_app; auto|exact B]).
  - destruct Ok as [O1 O2]. destruct (proc_stmt vz rb h t) as [q1|]; [|discriminate]. injection E as <-. destruct (IHt q1 t0 j O2 eq_refl M) as (l & w & I & B). exists l, w. auto.
  - destruct Ok as (O1 & O2 & O3). destruct (proc_stmt vz rb h t) as [q1|]; [|discriminate]. destruct (proc_stmt vz rb h e) as [q2|]; [|discriminate]. injection E as <-.
    destruct M as [M|M]; [destruct (IHt q1 t0 j O2 eq_refl M) as (l & w & I & B)|destruct (IHe q2 t0 j O3 eq_refl M) as (l & w & I & B)]; exists l, w; (split; [cbn; apply in_or_app; auto|exact B]).
  - destruct Ok as [O1 O2]. destruct (proc_items vz rb h its) as [q1|]; [|discriminate]. injection E as <-. destruct (IHi q1 t0 j O2 eq_refl M) as (l & w & I & B). exists l, w. auto.
  - destruct (proc_stmt vz rb h p) as [q1|]; [|discriminate]. injection E as <-. destruct (IHp q1 t0 j Ok eq_refl M) as (l & w & I & B). exists l, w. auto.
  - destruct Ok as (O1 & O2 & O3). destruct (proc_stmt vz rb h p) as [q1|]; [|discriminate]. destruct (proc_items vz rb h r) as [q2|]; [|discriminate]. injection E as <-.
    destruct M as [M|M]; [destruct (IHp q1 t0 j O2 eq_refl M) as (l & w & I & B)|destruct (IHr q2 t0 j O3 eq_refl M) as (l & w & I & B)]; exists l, w; (split; [cbn; apply in_or_app; auto|exact B]).
Qed.
Lemma nmay_driver : forall p, nstmt_ok p -> forall q k, In q ports -> may p (fp_sy q) k -> exists a d x, In (a, d, x) (fp_drivers q) /\ a <= k <= d.
Proof.
  induction p as [|bl l r|p IHp q IHq|c t IHt|c t IHt e IHe|c its IHi|p IHp|xs p IHp r IHr] using pst_mind with (P0 := fun r => nitems_ok vz rb h ports r -> forall q k, In q ports -> cmay r (fp_sy q) k -> exists a d x, In (a, d, x) (fp_drivers q) /\ a <= k <= d); intros Ok q0 k Iq M; cbn in M.
  - destruct M.
  - destruct Ok as (_ & (Lv & Tl & _ & Id & _) & _). destruct (lbit_path vz l Lv Tl _ _ M) as (pt & Ip & Rp & L).
    destruct (Id pt q0 Ip Iq Rp) as (a & d & x & I & L1 & L2). exists a, d, x. split; [exact I|lia].
  - destruct Ok as [O1 O2]. destruct M as [M|M]; [apply IHp|apply IHq]; auto.
  - destruct Ok as [O1 O2]. apply IHt; auto.
  - destruct Ok as (O1 & O2 & O3). destruct M as [M|M]; [apply IHt|apply IHe]; auto.
  - destruct Ok as [O1 O2]. apply IHi; auto.
  - apply IHp; auto.
  - destruct Ok as (O1 & O2 & O3). destruct M as [M|M]; [apply IHp|apply IHr]; auto.
Qed.

Variable b1 : bld.
Variable ops : list (nat * range * nat).
Hypothesis Pm : ports_made h ports b1 ops.
Notation Hk := (Hk ports b1).
Variable G0 : nat.
Notation Bnode := (Bnode ports G0).

(** * One block *)
(** How a clocked block changes the builder. *)
Record sgrow (R : nat -> Prop) (b b' : bld) : Prop := {
  sg_vt : forall t, ~ R t -> bvt b' t = bvt b t;
  sg_old : incl (bnodes b) (bnodes b');
  sg_new : forall n k, In (n, k) (bnodes b') -> In (n, k) (bnodes b) \/ (exists t w, k = BState t w) /\ bnext b <= n < bnext b';
  sg_dep : incl (bdeps b) (bdeps b');
  sg_pend : incl (bpend b) (bpend b');
  sg_dm : bdm b' = bdm b;
  sg_next : bnext b <= bnext b' }.
(** A State node of the block: what it is for each bit, and its edges. *)
Record SNode (x : fproc V) (b : bld) (X : ghX) (C : ghC) (n t a c : nat) : Prop := {
  sn_lt : n < bnext b;
  sn_le : a <= c;
  sn_may : forall j, a <= j <= c -> may (pr_body x) t j;
  sn_look : vt_lookup (bvt b) t (zrange a c) = Some n;
  sn_none : forall v, C n v = None /\ forall t' j, X n v t' j = None;
  sn_hook : forall j, a <= j <= c -> Hk b n t j;
  sn_val : forall j, a <= j <= c -> exists m lo, G0 <= lo /\ lo <= m < n /\ (forall k t' w, lo <= k <= m -> ~ In (k, BState t' w) (bnodes b)) /\ joined (bdeps b) m n /\
    forall v1 v2 e1 e2, (forall k, chain lo (bdeps b) m k -> same X C k v1 v2) -> e1 t j = e2 t j -> nrun (pr_body x) v1 e1 t j = nrun (pr_body x) v2 e2 t j }.

Lemma one_reg s x X C : clocked_block vz rb h ports x -> G0 <= bnext (fb s) -> fresh_from (bnext (fb s)) X C ->
  (forall n t w, In (n, BState t w) (bnodes (fb s)) -> n < bnext (fb s)) ->
  (forall q, In q ports -> bvt (fb s) (fp_id q) = bvt b1 (fp_id q)) ->
  (forall t i, may (pr_body x) t i -> bvt (fb s) t = None /\ forall q, In q ports -> t <> fp_id q) ->
  exists s' X' C', run_proc vz rb h nm ports width s x = DOk s' /\ sgrow (fun t => exists i, may (pr_body x) t i) (fb s) (fb s') /\
    ext (bnext (fb s)) X C X' C' /\ fresh_from (bnext (fb s')) X' C' /\
    (forall n, bnext (fb s) <= n < bnext (fb s') -> Bnode (fb s') X' C' n) /\
    (forall n t w, In (n, BState t w) (bnodes (fb s')) -> bnext (fb s) <= n -> exists a c, w = zrange a c /\ SNode x (fb s') X' C' n t a c) /\
    (forall t j, may (pr_body x) t j -> exists n a c, In (n, BState t (zrange a c)) (bnodes (fb s')) /\ bnext (fb s) <= n /\ a <= j <= c) /\
    (forall n t w, In (n, BState t w) (bnodes (fb s')) -> n < bnext (fb s')) /\
    exists new, fns s' = fns s ++ new.
Proof.
  intros [Se Ok Tp Al De] LG Fr Hid Hvt Hnew. destruct (nstmt_made _ Ok) as (p & Ep). specialize (Al p Ep). set (N0 := bnext (fb s)) in *.
  destruct (ntop_block vz istrue hits rb h ports nm (w_hints _ _ _ _ _ _ Wf) N0 (pr_body x) Tp (start N0) X C (fun _ => False) p Ok Ep (le_n _) (conj eq_refl eq_refl) Fr)
    as (s1 & X1 & C1 & F & E1 & [Cl1 G1 Xe Fr1 Ba1 Fl Lt Wr Out May _ Val]).
  { intros n L. cbn in L. lia. }
  cbn [start fxs fnext flv app] in Lt, Fl, Xe.
  pose proof G1 as (Le1 & _). cbn in Le1.
  assert (InF : forall t b m, In (t, b, m) F -> exists l, In (l, t, b) (nbw p)).
  { intros t b m I. apply (in_map fst) in I. rewrite Wr in I. apply in_map_iff in I. destruct I as ([[l t'] b'] & Q & I). unfold wkey in Q. cbn in Q. injection Q as -> ->. eauto. }
  assert (FIn : forall l t b, In (l, t, b) (nbw p) -> exists m, In (t, b, m) F).
  { intros l t b I. apply (in_map wkey) in I. rewrite <- Wr in I. apply in_map_iff in I. destruct I as ([[t' b'] m] & Q & I). unfold wkey in Q. cbn in Q. injection Q as -> ->. eauto. }
  destruct (process_ok (nbw p) Al F (cur s1)) as (a' & Ea & Oa & Ha); auto.
  { intros t b m I. destruct (InF t b m I) as (l & J). exists l, b. auto. }
  { intros sy. unfold defs. rewrite (proj1 Cl1). destruct sy; apply okd_empty. }
  assert (Has : forall t j m, hasA a' t (Z.of_nat j) m <-> lastF F t j m).
  { intros t j m. rewrite Ha. split; [intros [H|[_ H]]; [exact H|destruct (clean_no _ _ _ _ Cl1 H)]|auto]. }
  unfold run_proc. rewrite Ep. unfold run_block. fold N0. rewrite E1. cbn [dbind]. unfold finalize. rewrite Fl, Ea. cbn [dbind cur fxs fnext fnodes fdeps fpend].
  set (b0 := Bld (fnext (fxs s1)) (bnodes (fb s)) (bvt (fb s)) (bdm (fb s)) (bdeps (fb s) ++ fdeps (fxs s1)) (bpend (fb s) ++ fpend (fxs s1))).
  set (blk := combine (seq 0 (length (adefs a'))) (adefs a')).
  assert (Blk : forall sy d, In (sy, d) blk -> d = defs a' sy).
  { intros sy d I. unfold blk in I. unfold defs. apply In_nth with (d := (0, dm_empty)) in I. destruct I as (k & Lk & E).
    rewrite combine_length, seq_length, Nat.min_id in Lk. rewrite combine_nth in E by (now rewrite seq_length). injection E as E1' E2'.
    rewrite seq_nth in E1' by exact Lk. cbn in E1'. subst k. now symmetry. }
  assert (Nd : NoDup (map fst blk)).
  { unfold blk. replace (map fst (combine (seq 0 (length (adefs a'))) (adefs a'))) with (seq 0 (length (adefs a'))); [apply seq_NoDup|].
    generalize 0. clear. induction (adefs a') as [|y l IH]; intros k; [reflexivity|]. cbn. now rewrite <- IH. }
  assert (Wfb : forall sy d, In (sy, d) blk -> wf (ivs d)).
  { intros sy d I. rewrite (Blk sy d I). apply (ok_dok _ _ _ (Oa sy)). }
  rewrite (seq_drivers variables nm (port_refs ports) width no_modports _ Se blk b0).
  2:{ intros sy d I. rewrite (Blk sy d I). apply (ok_uns _ _ _ (Oa sy)). }
  cbn [dbind]. set (b2 := fold_left _ (entries blk) b0). eexists _, X1, C1. split; [reflexivity|]. cbn [fb fns].
  pose proof (fold_fields variables nm (port_refs ports) width no_modports (pr_sens x) (entries blk) b0) as FF. cbv zeta in FF. fold b2 in FF. destruct FF as (F1 & F2 & F3 & F4 & (ds & F5) & (ps & F6) & F7).
  cbn [b0 bnext bnodes bvt bdm bdeps bpend] in F1, F2, F3, F4, F5, F6.
  (* the State nodes *)
  assert (Ent : forall sy w dl, In (sy, w, dl) (entries blk) -> exists y a c, In y (ivs (defs a' sy)) /\ w = zrange a c /\ ilo y = Z.of_nat a /\ ihi y = Z.of_nat c /\ dl = listed (defs a' sy) y /\ part (pr_body x) sy w /\ a <= c).
  { intros sy w dl I. apply entries_sym in I. destruct I as (d & y & I & Iy & -> & ->). rewrite (Blk sy d I) in *.
    destruct (ok_in _ _ _ (Oa sy) y Iy) as (l & w & Iw & E3 & E4). pose proof (nwrites_part _ _ _ _ _ Ok Ep Iw) as P. pose proof P as (lhs & pt & a & c & P1 & P2 & P3 & P4 & P5 & P6 & P7 & P8 & P9 & P10).
    exists y, a, c. split; [exact Iy|]. split; [unfold zrange; congruence|]. split; [congruence|]. split; [congruence|]. split; [reflexivity|]. split; [|exact P7].
    exists lhs, pt, a, c. rewrite E3, E4, P4, P5. rewrite lower_range, upper_range by lia. auto 12. }
  assert (Stn : forall n t w, In (n, BState t w) (bnodes b2) -> N0 <= n -> In (t, w, n) (state_ops (fnext (fxs s1)) (entries blk))).
  { intros n t w I L. rewrite F2 in I. apply in_app_or in I. destruct I as [I|I]; [specialize (Hid _ _ _ I); lia|].
    apply in_map_iff in I. destruct I as ([[t' w'] n'] & Q & I). cbn in Q. injection Q as <- <- <-. exact I. }
  assert (Sym : forall t w n, In (t, w, n) (state_ops (fnext (fxs s1)) (entries blk)) -> exists i, may (pr_body x) t i).
  { intros t w n I. apply state_ops_in in I. destruct I as (dl & I). destruct (Ent _ _ _ I) as (y & a & c & _ & _ & _ & _ & _ & (lhs & pt & a0 & c0 & P) & _). exists a0. apply P. lia. }
  assert (Ge : forall t w n, In (t, w, n) (state_ops (fnext (fxs s1)) (entries blk)) -> fnext (fxs s1) <= n < bnext b2).
  { intros t w n I. apply state_ops_at in I. destruct I as (pre & dl & post & Q & ->). rewrite F1, Q, app_length. cbn. lia. }
  split; [|split; [exact Xe|split; [|split; [|split; [|split; [|split]]]]]].
  - split.
    + intros t Nt. rewrite F3, vt_run_sym. destruct (ops_of t _) as [|[w n] rest] eqn:Eo; [reflexivity|]. exfalso. apply Nt.
      apply (Sym t w n). apply ops_of_in. rewrite Eo. now left.
    + rewrite F2. intros y I. apply in_or_app. now left.
    + intros n k I. rewrite F2 in I. apply in_app_or in I. destruct I as [I|I]; [now left|]. right. apply in_map_iff in I. destruct I as ([[t w] m] & Q & I). cbn in Q. injection Q as <- <-.
      split; [eauto|]. specialize (Ge _ _ _ I). fold N0. lia.
    + rewrite F5. intros y I. apply in_or_app. left. apply in_or_app. now left.
    + rewrite F6. intros y I. apply in_or_app. left. apply in_or_app. now left.
    + exact F4.
    + fold N0. rewrite F1. lia.
  - intros n v L. apply Fr1. rewrite F1 in L. lia.
  - intros n L. destruct (Nat.lt_ge_cases n (fnext (fxs s1))) as [Ln|Ln].
    + intros v1 v2 H1 H2. apply (Ba1 n); [lia|exact (fun z => z)| |].
      * intros m Lm J. apply H1; [lia|]. eapply joined_incl; [|exact J]. intros e I. rewrite F5. apply in_or_app. left. apply in_or_app. now right.
      * intros t j P. apply H2. eapply pended_incl; [|exact P]. intros e I. rewrite F6. apply in_or_app. left. apply in_or_app. now right.
    + intros v1 v2 _ _. destruct (Fr1 n v1 Ln) as [A1 A2], (Fr1 n v2 Ln) as [A3 A4]. split; [congruence|]. intros t j. now rewrite A2, A4.
  - intros n t w I L. apply (Stn n t w I) in L. pose proof (Ge _ _ _ L) as Lg. pose proof (state_ops_at _ _ _ _ _ L) as (pre & dl & post & Q & En).
    assert (Ie : In (t, w, dl) (entries blk)) by (rewrite Q; apply in_or_app; right; now left).
    destruct (Ent t w dl Ie) as (y & a & c & Iy & -> & Ey1 & Ey2 & Edl & (lhs & pt & a0 & c0 & P1 & P2 & P3 & P4 & P5 & P6 & P7 & P8 & P9 & P10) & Lac).
    unfold zrange in P4, P5. rewrite lower_range in P4 by lia. rewrite upper_range in P5 by lia. apply Nat2Z.inj in P4, P5. subst a0 c0.
    exists a, c. split; [reflexivity|]. split.
    + lia.
    + exact Lac.
    + exact P10.
    + rewrite F3. rewrite (lookup_ext _ (vt_run vt_empty (state_ops (fnext (fxs s1)) (entries blk)))).
      * apply lookup_history; [now apply (states_apart variables nm (port_refs ports) width no_modports)|cbn; lia|]. exists (zrange a c). split; [exact L|]. unfold zrange. rewrite lower_range, upper_range by lia. cbn. auto.
      * apply vt_run_fresh. apply (Hnew t a). apply P10. lia.
    + intros v. apply Fr1. lia.
    + intros j Lj. apply (hook_ok vz rb h nm ports conns asgs Wf b1 ops Pm b2 n t a c j [n]); auto; [now left| |].
      * intros q' Iq' Eq'. destruct (P1 pt q' P2 Iq') as (lo & hi & x0 & I0 & L0 & L0'); [congruence|]. exists lo, hi, x0. split; [exact I0|lia].
      * apply (fold_hooks nm ports width (pr_sens x) (bvt b1) (entries blk) b0); auto. intros sy b dl' q Ib Iq. destruct (Ent _ _ _ Ib) as (_ & a1 & c1 & _ & _ & _ & _ & _ & (lhs' & pt' & a2 & c2 & R) & _).
        apply (Hnew sy a2); [|exact Iq]. apply R. lia.
    + intros j Lj. assert (Hj : exists m, hasA a' t (Z.of_nat j) m /\ In m dl).
      { pose proof (ok_uns _ _ _ (Oa t)) as [Va _]. specialize (Va y Iy). pose proof (ok_ne _ _ _ (Oa t) y Iy) as Ne. unfold listed in Edl. destruct (get (lists (defs a' t)) (ival y)) as [l|] eqn:Gl; [|congruence].
        destruct l as [|m l]; [exfalso; apply Ne; reflexivity|]. exists m. subst dl. split; [|now left]. exists y, (m :: l). split; [exact Iy|]. split; [unfold S_Interval.inside; lia|]. split; [exact Gl|now left]. }
      destruct Hj as (m & Hm & Im). apply Has in Hm. destruct (lastF_in _ _ _ _ Hm) as (b & Ib & Bb). pose proof (Lt _ _ _ Ib) as Lm. exists m, N0. split; [lia|]. split; [lia|]. split; [|split].
      * intros k t0 w0 Lk Ik. rewrite F2 in Ik. apply in_app_or in Ik. destruct Ik as [Ik|Ik]; [specialize (Hid _ _ _ Ik); fold N0 in Hid; lia|].
        apply in_map_iff in Ik. destruct Ik as ([[t' w'] m'] & Q' & Ik). cbn in Q'. injection Q' as -> _ _. specialize (Ge _ _ _ Ik). lia.
      * destruct (F7 pre t (zrange a c) dl post Q) as [F8 _]. specialize (F8 m Im). eexists. split; [exact F8|]. cbn. split; [reflexivity|symmetry; exact En].
      * intros v1 v2 e1 e2 Sa Ee. apply (Val v1 v2 e1 e2 t j m); auto.
        intros k Ck. apply Sa. eapply chain_incl; [|exact Ck]. rewrite F5. intros e I'. apply in_or_app. left. apply in_or_app. now right.
  - intros t j M. destruct (may_write _ _ _ _ Ok Ep M) as (l & w & Iw & Bw). destruct (FIn _ _ _ Iw) as (m0 & Im).
    destruct (lastF_some F t j) as (m & Hm); [exists w, m0; auto|]. apply Has in Hm. destruct Hm as (y & dl & Iy & By & Gl & _).
    assert (It : In (t, defs a' t) blk).
    { unfold blk. unfold defs in *. destruct (Nat.lt_ge_cases t (length (adefs a'))) as [L|L].
      - replace (t, nth t (adefs a') dm_empty) with (nth t (combine (seq 0 (length (adefs a'))) (adefs a')) (0, dm_empty)).
        + apply nth_In. rewrite combine_length, seq_length. lia.
        + rewrite combine_nth by (now rewrite seq_length). rewrite seq_nth by exact L. reflexivity.
      - rewrite nth_overflow in Iy by exact L. destruct Iy. }
    assert (Ie : In (t, Range (ilo y) (ihi y), listed (defs a' t) y) (entries blk)).
    { unfold entries. apply in_flat_map. exists (t, defs a' t). split; [exact It|]. cbn [fst snd]. apply in_map_iff. eauto. }
    pose proof Ie as Ie'. apply in_split in Ie'. destruct Ie' as (pre & post & Q).
    pose proof (state_ops_nth variables nm (port_refs ports) width no_modports _ (fnext (fxs s1)) _ _ _ _ _ Q) as Io.
    destruct (Ent _ _ _ Ie) as (y' & a & c & _ & Ew & _ & _ & _ & _ & Lac). injection Ew as Ey1 Ey2.
    exists (fnext (fxs s1) + length pre), a, c. split; [|split; [lia|unfold S_Interval.inside in By; lia]].
    rewrite F2. apply in_or_app. right. apply in_map_iff. eexists. split; [|exact Io]. cbn. unfold zrange. now rewrite Ey1, Ey2.
  - intros n t0 w0 I. rewrite F2 in I. apply in_app_or in I. destruct I as [I|I]; [specialize (Hid _ _ _ I); fold N0 in Hid; rewrite F1; lia|].
    apply in_map_iff in I. destruct I as ([[t w] m] & Q & I). cbn in Q. injection Q as <- _ _. specialize (Ge _ _ _ I). lia.
  - eauto.
Qed.

(** * All blocks *)
(** How a block of either kind changes the builder. *)
Record tgrow (R : nat -> Prop) (b b' : bld) : Prop := {
  tg_vt : forall t, ~ R t -> bvt b' t = bvt b t;
  tg_old : incl (bnodes b) (bnodes b');
  tg_new : forall n k, In (n, k) (bnodes b') -> In (n, k) (bnodes b) \/ k = BConst \/ (exists t w, k = BState t w) /\ bnext b <= n < bnext b';
  tg_dep : incl (bdeps b) (bdeps b');
  tg_pend : incl (bpend b) (bpend b');
  tg_dm : forall t i n, drives_global (bdm b) t i n -> drives_global (bdm b') t i n;
  tg_next : bnext b <= bnext b' }.
Lemma tgrow_b R b b' : bgrow b b' -> tgrow R b b'.
Proof.
  intros G. split; try apply G.
  - intros t _. now rewrite (g_vt _ _ G).
  - intros n k I. destruct (g_new _ _ G _ _ I); auto.
Qed.
Lemma tgrow_s R b b' : sgrow R b b' -> tgrow R b b'.
Proof.
  intros G. split; try apply G.
  - intros n k I. destruct (sg_new _ _ _ G _ _ I); auto.
  - intros t i n D. now rewrite (sg_dm _ _ _ G).
Qed.
Lemma tgrow_trans (R R' Q : nat -> Prop) a b c : (forall t, R t -> Q t) -> (forall t, R' t -> Q t) -> tgrow R a b -> tgrow R' b c -> tgrow Q a c.
Proof.
  intros H1 H2 [A1 A2 A3 A4 A5 A6 A7] [B1 B2 B3 B4 B5 B6 B7]. split.
  - intros t N. rewrite B1, A1; auto.
  - eapply incl_tran; eauto.
  - intros n k I. destruct (B3 n k I) as [J|[J|[J L]]]; [destruct (A3 n k J) as [K|[K|[K L]]]; [auto|auto|right; right; split; [exact K|lia]]|auto|right; right; split; [exact J|lia]].
  - eapply incl_tran; eauto.
  - eapply incl_tran; eauto.
  - auto.
  - lia.
Qed.
Lemma Bnode_tgrow R b b' (X : ghX) (C : ghC) (X' : ghX) (C' : ghC) n : tgrow R b b' -> ext (S n) X C X' C' -> Bnode b X C n -> Bnode b' X' C' n.
Proof.
  intros G E B v1 v2 H1 H2. apply (same_ext _ _ _ _ _ _ _ _ E); [apply Nat.lt_succ_diag_r|]. apply B.
  - intros m L J. apply (same_ext _ _ _ _ _ _ _ _ E); [apply Nat.lt_lt_succ_r, L|]. apply H1; [exact L|]. eapply joined_incl; [apply (tg_dep _ _ _ G)|exact J].
  - intros t j P. apply H2. eapply pended_incl; [apply (tg_pend _ _ _ G)|exact P].
Qed.
Lemma Hk_tgrow R b b' n t j : tgrow R b b' -> Hk b n t j -> Hk b' n t j.
Proof.
  intros G H q pn lo hi Iq Eq P Lj. destruct (H q pn lo hi Iq Eq P Lj) as [Y|(e & Ie & Y)]; [now left|]. right. exists e. split; [apply (tg_dep _ _ _ G), Ie|exact Y].
Qed.
Lemma Bdrv_tgrow R b b' (X : ghX) (C : ghC) (X' : ghX) (C' : ghC) p t j : tgrow R b b' -> ext (bnext b) X C X' C' ->
  Bdrv vz istrue hits ports b1 G0 b X C p t j -> Bdrv vz istrue hits ports b1 G0 b' X' C' p t j.
Proof.
  intros G E B v1 v2 H. apply B. intros n L D K. apply (same_ext _ _ _ _ _ _ _ _ E); [lia|]. apply H.
  - pose proof (tg_next _ _ _ G). lia.
  - now apply (tg_dm _ _ _ G).
  - eapply Hk_tgrow; eauto.
Qed.
Lemma SNode_tgrow R x b b' (X : ghX) (C : ghC) (X' : ghX) (C' : ghC) n t a c : tgrow R b b' -> ext (bnext b) X C X' C' -> ~ R t -> SNode x b X C n t a c -> SNode x b' X' C' n t a c.
Proof.
  intros G E Nt [S1 S2 S3 S4 S5 S6 S7]. pose proof (tg_next _ _ _ G) as Le. split; auto.
  - lia.
  - rewrite <- S4. apply lookup_ext. now apply (tg_vt _ _ _ G).
  - intros v. destruct (E n S1) as [-> ->]. apply S5.
  - intros j L. eapply Hk_tgrow; eauto.
  - intros j L. destruct (S7 j L) as (m & lo & L0 & Lm & Nm & J & Y). exists m, lo. split; [exact L0|]. split; [exact Lm|]. split; [|split].
    + intros k t' w Lk I. destruct (tg_new _ _ _ G _ _ I) as [I'|[I'|[_ I']]]; [exact (Nm k t' w Lk I')|discriminate|lia].
    + eapply joined_incl; [apply (tg_dep _ _ _ G)|exact J].
    + intros v1 v2 e1 e2 H. apply Y. intros k Ck. pose proof (chain_le _ _ _ _ Ck). apply (same_ext _ _ _ _ _ _ _ _ E); [lia|]. apply H. eapply chain_incl; [apply (tg_dep _ _ _ G)|exact Ck].
Qed.

Definition by_regs (l : list (fproc V)) (t : nat) : Prop := exists x i, In x l /\ may (pr_body x) t i.
(** The blocks in any order: [l] has the combinational blocks [ps] and the clocked ones
    [rs]. *)
Variable procs : list (fproc V).
Hypothesis Cb : forall x, In x procs -> comb_block vz rb h ports x.
Lemma all_tasks : forall l ps rs s X C, Permutation l (ps ++ rs) -> incl ps procs -> NoDup rs -> (forall x, In x rs -> clocked_block vz rb h ports x) ->
  (forall x y t i j, In x rs -> In y rs -> may (pr_body x) t i -> may (pr_body y) t j -> x = y) ->
  gok (fb s) -> G0 <= bnext (fb s) -> fresh_from (bnext (fb s)) X C ->
  (forall n t w, In (n, BState t w) (bnodes (fb s)) -> n < bnext (fb s)) ->
  (forall q, In q ports -> bvt (fb s) (fp_id q) = bvt b1 (fp_id q)) ->
  (forall t, by_regs rs t -> bvt (fb s) t = None /\ forall q, In q ports -> t <> fp_id q) ->
  exists s' X' C', run_procs vz rb h nm ports width s l = DOk s' /\ gok (fb s') /\ tgrow (by_regs rs) (fb s) (fb s') /\
    ext (bnext (fb s)) X C X' C' /\ fresh_from (bnext (fb s')) X' C' /\
    (forall n, bnext (fb s) <= n < bnext (fb s') -> Bnode (fb s') X' C' n) /\
    (forall x t j, In x ps -> may (pr_body x) t j -> Bdrv vz istrue hits ports b1 G0 (fb s') X' C' (pr_body x) t j) /\
    (forall n t w, In (n, BState t w) (bnodes (fb s')) -> bnext (fb s) <= n -> exists x a c, In x rs /\ w = zrange a c /\ SNode x (fb s') X' C' n t a c) /\
    (forall x t j, In x rs -> may (pr_body x) t j -> exists n a c, In (n, BState t (zrange a c)) (bnodes (fb s')) /\ bnext (fb s) <= n /\ a <= j <= c).
Proof.
  induction l as [|x l IH]; intros ps rs s X C Pe Ip Nd Ck On Gk LG Fr Hid Hvt Hnew; cbn [run_procs].
  - apply Permutation_nil in Pe. apply app_eq_nil in Pe. destruct Pe as [-> ->].
    exists s, X, C. split; [reflexivity|]. split; [exact Gk|]. split; [apply tgrow_b, P_Flow6.grow_refl|]. split; [apply P_Proc2.ext_refl|]. split; [exact Fr|]. split; [intros n L; lia|]. split; [intros x t j []|]. split; [|intros x t j []].
    intros n t w I L. specialize (Hid n t w I). lia.
  - assert (Ix : In x (ps ++ rs)) by (eapply Permutation_in; [exact Pe|now left]). apply in_app_or in Ix. destruct Ix as [Ix|Ix].
    + destruct (in_split _ _ Ix) as (p1 & p2 & ->).
      assert (Pe' : Permutation l ((p1 ++ p2) ++ rs)).
      { rewrite <- app_assoc in *. cbn [app] in Pe. eapply Permutation_cons_app_inv. exact Pe. }
      assert (Ip' : incl (p1 ++ p2) procs).
      { intros y I. apply Ip. apply in_app_or in I. apply in_or_app. cbn. tauto. }
      destruct (one_proc vz istrue hits rb h nm ports width conns asgs procs Wf Cb b1 ops Pm G0 s x X C (Ip x Ix) Gk Hvt LG Fr) as (s1 & X1 & C1 & E1 & G1 & W1 & Xe1 & F1 & N1 & D1 & _).
      rewrite E1. cbn [dbind]. pose proof (g_next _ _ W1) as L1.
      destruct (IH (p1 ++ p2) rs s1 X1 C1 Pe' Ip' Nd Ck On G1) as (s2 & X2 & C2 & E2 & G2 & W2 & Xe2 & F2 & N2 & B2 & D2 & M2); auto.
      { lia. }
      { intros n t w I. destruct (g_new _ _ W1 _ _ I) as [J|J]; [|discriminate]. specialize (Hid n t w J). lia. }
      { intros q Iq. rewrite (g_vt _ _ W1). now apply Hvt. }
      { intros t B. rewrite (g_vt _ _ W1). now apply Hnew. }
      exists s2, X2, C2. split; [exact E2|]. split; [exact G2|]. split; [|split; [|split; [exact F2|split; [|split; [|split]]]]].
      * eapply (tgrow_trans (by_regs rs) (by_regs rs)); [auto|auto|apply tgrow_b; exact W1|exact W2].
      * eapply P_Proc2.ext_trans; eauto.
      * intros n L. destruct (Nat.lt_ge_cases n (bnext (fb s1))) as [Ln|Ln]; [|apply N2; lia].
        eapply Bnode_tgrow; [exact W2|intros k Lk; apply Xe2; lia|]. apply N1. lia.
      * intros y t j Iy M. apply in_app_or in Iy. destruct Iy as [Iy|[<-|Iy]]; [apply B2; [apply in_or_app; now left|exact M]| |apply B2; [apply in_or_app; now right|exact M]].
        eapply Bdrv_tgrow; eauto.
      * intros n t w I L. destruct (Nat.lt_ge_cases n (bnext (fb s1))) as [Ln|Ln]; [|now apply D2].
        destruct (tg_new _ _ _ W2 _ _ I) as [J|[J|[_ J]]]; [|discriminate|lia]. destruct (g_new _ _ W1 _ _ J) as [K|K]; [|discriminate]. specialize (Hid n t w K). lia.
      * intros y t j Iy M. destruct (M2 y t j Iy M) as (n & a & c & I & L & Lj). exists n, a, c. split; [exact I|]. split; [lia|exact Lj].
    + destruct (in_split _ _ Ix) as (r1 & r2 & ->).
      assert (Pe' : Permutation l (ps ++ (r1 ++ r2))).
      { rewrite app_assoc in *. eapply Permutation_cons_app_inv. exact Pe. }
      pose proof (NoDup_remove _ _ _ Nd) as [Nd' Nx].
      assert (Sub : forall y, In y (r1 ++ r2) -> In y (r1 ++ x :: r2)).
      { intros y I. apply in_app_or in I. apply in_or_app. cbn. tauto. }
      assert (SubB : forall t, by_regs (r1 ++ r2) t -> by_regs (r1 ++ x :: r2) t).
      { intros t (y & i & Iy & My). exists y, i. auto. }
      destruct (one_reg s x X C (Ck x Ix) LG Fr Hid Hvt) as (s1 & X1 & C1 & E1 & W1 & Xe1 & F1 & N1 & D1 & M1 & I1 & _).
      { intros t i M. apply Hnew. exists x, i. auto. }
      rewrite E1. cbn [dbind]. pose proof (sg_next _ _ _ W1) as L1.
      assert (Ap : forall t, by_regs (r1 ++ r2) t -> ~ exists i, may (pr_body x) t i).
      { intros t (y & i & Iy & My) (j & Mx). apply Nx. rewrite (On x y t j i); auto. }
      destruct (IH ps (r1 ++ r2) s1 X1 C1 Pe' Ip Nd') as (s2 & X2 & C2 & E2 & G2 & W2 & Xe2 & F2 & N2 & B2 & D2 & M2); auto.
      { intros y z t i j Iy Iz. apply On; auto. }
      { unfold gok. rewrite (sg_dm _ _ _ W1). exact Gk. }
      { lia. }
      { intros q Iq. rewrite (sg_vt _ _ _ W1); [now apply Hvt|]. intros (i & M). destruct (Hnew (fp_id q)) as [_ Y]; [exists x, i; auto|]. now apply (Y q). }
      { intros t B. destruct (Hnew t (SubB t B)) as [Y1 Y2]. split; [|exact Y2]. rewrite (sg_vt _ _ _ W1); [exact Y1|now apply Ap]. }
      exists s2, X2, C2. split; [exact E2|]. split; [exact G2|]. split; [|split; [|split; [exact F2|split; [|split; [exact B2|split]]]]].
      * eapply tgrow_trans; [| |apply tgrow_s; exact W1|exact W2].
        -- intros t (i & M). exists x, i. auto.
        -- exact SubB.
      * eapply P_Proc2.ext_trans; eauto.
      * intros n L. destruct (Nat.lt_ge_cases n (bnext (fb s1))) as [Ln|Ln]; [|apply N2; lia].
        eapply Bnode_tgrow; [exact W2|intros k Lk; apply Xe2; lia|]. apply N1. lia.
      * intros n t w I L. destruct (tg_new _ _ _ W2 _ _ I) as [I'|[I'|[_ L']]]; [|discriminate|].
        -- destruct (D1 n t w I' L) as (a & c & -> & Sn). exists x, a, c. split; [exact Ix|]. split; [reflexivity|]. eapply SNode_tgrow; eauto.
           intros B. apply (Ap t B). exists a. apply (sn_may _ _ _ _ _ _ _ _ Sn). pose proof (sn_le _ _ _ _ _ _ _ _ Sn). lia.
        -- destruct (D2 n t w I) as (y & a & c & Iy & Y); [lia|]. exists y, a, c. split; [now apply Sub|exact Y].
      * intros y t j Iy M. apply in_app_or in Iy. assert (Iy' : y = x \/ In y (r1 ++ r2)) by (cbn in Iy; destruct Iy as [Iy|[Iy|Iy]]; [right; apply in_or_app; now left|now left|right; apply in_or_app; now right]).
        destruct Iy' as [->|Iy'].
        -- destruct (M1 t j M) as (n & a & c & I & L & Lj). exists n, a, c. split; [now apply (tg_old _ _ _ W2)|auto].
        -- destruct (M2 y t j Iy' M) as (n & a & c & I & L & Lj). exists n, a, c. split; [exact I|]. split; [lia|exact Lj].
Qed.
End Main.
