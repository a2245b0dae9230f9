(** Proofs about combinational blocks: whole designs. *)
From Coq Require Import Sorted.
From Verif Require Import Base M_Graph M_Range M_Netlist M_DFS M_Path M_Annot M_Interval M_Heap M_Drivers M_Pending M_DFA M_Builder M_Slice M_Port M_Flow M_Proc
  S_Graph S_Reach S_Netlist S_Annot S_Interval S_Drivers S_Pending S_DFA S_Builder S_Slice S_Port S_Flow S_Proc
  P_Graph P_DFS P_Path P_Interval P_Heap P_Drivers P_DriversX P_Annot P_Pending P_Pending2 P_DFA P_DFA2 P_Builder P_Slice P_Slice2 P_Port P_Flow P_Flow2 P_Flow3 P_Flow4 P_Flow5 P_Flow6 P_Flow7 P_Flow8
  P_Proc1 P_Proc2.
Notation bgrow := P_Flow6.grow.

(** * Going back through a cone, with several providers *)
Section Back.
Variable I : Type.
Variable R : nat -> nat -> Prop.
Variable cone : list nat.
Hypothesis closed : forall m n, In m cone -> R m n -> In n cone.
Hypothesis acyclic : forall m, In m cone -> ~ Reach1 R m m.
Variable Prov : nat -> I -> Prop.
Variable Rd : nat -> I -> Prop.
Variable same : I -> Prop.
Hypothesis prov : forall n x, In n cone -> Prov n x ->
  same x \/ exists A : I -> Prop, ((forall y, A y -> same y) -> same x) /\ forall y, A y -> Rd n y.
Hypothesis read : forall n x, In n cone -> Rd n x ->
  same x \/ exists A : nat -> I -> Prop, ((forall n' y, A n' y -> same y) -> same x) /\ forall n' y, A n' y -> Prov n' y /\ R n n'.

Lemma back2_ind : forall k seen n, NoDup seen -> incl seen cone -> length cone <= length seen + k ->
  (forall m, In m seen -> Reach1 R m n) -> In n cone -> forall x, Prov n x -> same x.
Proof.
  induction k as [|k IH]; intros seen n ND Inc Len An J x P.
  - exfalso. assert (N : ~ In n seen) by (intros K; apply (acyclic n J), An, K).
    assert (L : length (n :: seen) <= length cone).
    { apply NoDup_incl_length; [now constructor|]. intros y [<-|K]; auto. }
    cbn in L. lia.
  - destruct (prov n x J P) as [E|(A & D & Rs)]; [exact E|]. apply D. intros y Ty.
    destruct (read n y J (Rs y Ty)) as [E|(B & D' & Rs')]; [exact E|]. apply D'. intros n' z Tz. destruct (Rs' n' z Tz) as [P' St].
    apply (IH (n :: seen) n'); auto.
    + constructor; [|exact ND]. intros K. apply (acyclic n J), An, K.
    + intros y' [<-|K]; auto.
    + cbn. lia.
    + intros m [<-|K]; [exists n'; split; [exact St|constructor]|].
      destruct (An m K) as (c & C1 & C2). exists c. split; [exact C1|]. eapply reach_step; eauto.
    + eauto.
Qed.
Lemma back2_prov n x : In n cone -> Prov n x -> same x.
Proof. intros J P. apply (back2_ind (length cone) [] n); auto; [constructor|intros y []|intros m []]. Qed.
Lemma back2_read n x : In n cone -> Rd n x -> same x.
Proof.
  intros J H. destruct (read n x J H) as [E|(A & D & Rs)]; [exact E|]. apply D. intros n' y Ty. destruct (Rs n' y Ty). apply (back2_prov n'); eauto.
Qed.
End Back.

Lemma bit_eq (a b : nat * nat) : {a = b} + {a <> b}.
Proof. decide equality; apply Nat.eq_dec. Defined.
Lemma may_dec {V} : forall (p : pst V) t j, may p t j \/ ~ may p t j.
Proof.
  induction p as [|bl l r|p IHp q IHq|c t IHt|c t IHt e IHe|c its IHi|p IHp|xs p IHp r IHr] using pst_mind with (P0 := fun r => forall t j, cmay r t j \/ ~ cmay r t j); intros t0 j; cbn; auto.
  - destruct (in_dec bit_eq (t0, j) (lbits l)); auto.
  - destruct (IHp t0 j), (IHq t0 j); tauto.
  - destruct (IHt t0 j), (IHe t0 j); tauto.
  - destruct (IHp t0 j), (IHr t0 j); tauto.
Qed.

Section Hooks.
Variable nm : nat -> str.
Variable ports : list fport.
Notation hook := (hookupOutputPort nm (port_refs ports)).
Lemma hook_same vt vt' sy b dl : (forall p, In p (port_refs ports sy) -> vt p = vt' p) -> hook vt sy b dl = hook vt' sy b dl.
Proof.
  intros H. unfold hookupOutputPort. destruct (port_refs ports sy) as [|p [|p' l]]; [reflexivity| |reflexivity].
  assert (E : vt p = vt' p) by (apply H; now left). rewrite (lookup_ext _ _ _ b E). unfold first_containing. now rewrite E.
Qed.
Lemma port_refs_in sy p : In p (port_refs ports sy) -> exists q, In q ports /\ p = fp_id q.
Proof.
  unfold port_refs. intros H. apply in_map_iff in H. destruct H as (q & E & I). apply filter_In in I. exists q. split; [apply I|now symmetry].
Qed.
End Hooks.

Section Main.
Context {V : Type}.
Variable vz : V.
Variable istrue : list V -> bool.
Variable hits : list V -> list V -> bool.
Variable rb : bool.
Variable h : hints.
Variable nm : nat -> str.
Variable ports : list fport.
Variable width : nat -> Z.
Variable conns : list (fconn V).
Variable asgs : list (fasg V).
Variable procs : list (fproc V).
Notation env := (nat -> nat -> V).
Hypothesis Wf : wf_design vz rb h ports conns asgs.
Hypothesis Cb : forall x, In x procs -> comb_block vz rb h ports x.
Notation stmt_ok := (stmt_ok vz rb h ports).
Notation items_ok := (items_ok vz rb h ports).
Notation prun := (prun vz istrue hits).
Notation ghX := (nat -> env -> nat -> nat -> option V).
Notation ghC := (nat -> env -> option nat).
Notation hook := (hookupOutputPort nm (port_refs ports)).

(** * Statements *)
Lemma stmt_made : forall p, stmt_ok p -> exists q, proc_stmt vz rb h p = Some q.
Proof.
  induction p as [|bl l r|p IHp q IHq|c t IHt|c t IHt e IHe|c its IHi|p IHp|xs p IHp r IHr] using pst_mind with (P0 := fun r => items_ok r -> exists q, proc_items vz rb h r = Some q); intros Ok.
  1-5: cbn [proc_stmt].
  6: rewrite proc_case.
  7: rewrite proc_default.
  8: rewrite proc_item.
  - eexists. reflexivity.
  - destruct (asg_segs vz rb h ports nm (w_hints _ _ _ _ _ _ Wf) bl l r (asg_ok_shape _ _ _ _ _ _ _ Ok)) as (q & gs & Wa & E & _). eauto.
  - destruct Ok as [O1 O2]. destruct (IHp O1) as (q1 & ->), (IHq O2) as (q2 & ->). eauto.
  - destruct Ok as [O1 O2]. destruct (IHt O2) as (q1 & ->). cbn. eauto.
  - destruct Ok as (O1 & O2 & O3). destruct (IHt O2) as (q1 & ->), (IHe O3) as (q2 & ->). eauto.
  - destruct Ok as [O1 O2]. destruct (IHi O2) as (q1 & ->). cbn. eauto.
  - destruct (IHp Ok) as (q1 & ->). cbn. eauto.
  - destruct Ok as (O1 & O2 & O3). destruct (IHp O2) as (q1 & ->), (IHr O3) as (q2 & ->). eauto.
Qed.
(** A write of a block is part of a variable or select on the left of an assignment. *)
Definition lpart (t : nat) (w : range) : Prop :=
  exists (lhs : expr V) pt a c, in_driver ports lhs /\ In pt (lpaths lhs) /\ proot pt = Some t /\ lower w = Z.of_nat a /\ upper w = Z.of_nat c /\
    plo pt <= a /\ a <= c /\ c <= phi pt /\ forall hs d, h t = Some hs -> In d hs -> ~ a < d <= c.
Lemma writes_paths : forall p q l t w, stmt_ok p -> proc_stmt vz rb h p = Some q -> In (l, t, w) (all_writes q) -> lpart t w.
Proof.
  induction p as [|bl l r|p IHp q IHq|c t IHt|c t IHt e IHe|c its IHi|p IHp|xs p IHp r IHr] using pst_mind with (P0 := fun r => forall q l t w, items_ok r -> proc_items vz rb h r = Some q -> In (l, t, w) (call_writes q) -> lpart t w); intros q' lb t0 w Ok E Iw.
  1-5: cbn [proc_stmt] in E.
  6: rewrite proc_case in E.
  7: rewrite proc_default in E.
  8: rewrite proc_item in E.
  - injection E as <-. destruct Iw.
  - destruct (asg_segs vz rb h ports nm (w_hints _ _ _ _ _ _ Wf) bl l r (asg_ok_shape _ _ _ _ _ _ _ Ok)) as (q & gs & Wa & E' & _ & _ & Aw & _ & Hw & _ & (_ & Hi & _) & _).
    rewrite E in E'. injection E' as <-. destruct (Aw lb t0 w) as (g & Ig & Il); [destruct Ok as [-> _]; exact Iw|]. destruct (Hw t0 _ _ (Hi g t0 w Ig Il)) as (pt & a & c & Ip & Rp & Ea & Ec & L1 & L2 & L3 & Cut).
    exists l, pt, a, c. split; [apply Ok|]. auto 10.
  - destruct Ok as [O1 O2]. destruct (proc_stmt vz rb h p) as [q1|]; [|discriminate]. destruct (proc_stmt vz rb h q) as [q2|]; [|discriminate]. injection E as <-.
    cbn in Iw. apply in_app_or in Iw. destruct Iw as [Iw|Iw]; eauto.
  - destruct Ok as [O1 O2]. destruct (proc_stmt vz rb h t) as [q1|]; [|discriminate]. injection E as <-. eauto.
  - destruct Ok as (O1 & O2 & O3). destruct (proc_stmt vz rb h t) as [q1|]; [|discriminate]. destruct (proc_stmt vz rb h e) as [q2|]; [|discriminate]. injection E as <-.
    cbn in Iw. apply in_app_or in Iw. destruct Iw as [Iw|Iw]; eauto.
  - destruct Ok as [O1 O2]. destruct (proc_items vz rb h its) as [q1|]; [|discriminate]. injection E as <-. eauto.
  - destruct (proc_stmt vz rb h p) as [q1|]; [|discriminate]. injection E as <-. eauto.
  - destruct Ok as (O1 & O2 & O3). destruct (proc_stmt vz rb h p) as [q1|]; [|discriminate]. destruct (proc_items vz rb h r) as [q2|]; [|discriminate]. injection E as <-.
    cbn in Iw. apply in_app_or in Iw. destruct Iw as [Iw|Iw]; eauto.
Qed.
Lemma may_driver : forall p, stmt_ok p -> forall q k, In q ports -> may p (fp_sy q) k -> exists a d x, In (a, d, x) (fp_drivers q) /\ a <= k <= d.
Proof.
  induction p as [|bl l r|p IHp q IHq|c t IHt|c t IHt e IHe|c its IHi|p IHp|xs p IHp r IHr] using pst_mind with (P0 := fun r => items_ok r -> forall q k, In q ports -> cmay r (fp_sy q) k -> exists a d x, In (a, d, x) (fp_drivers q) /\ a <= k <= d); intros Ok q0 k Iq M; cbn in M.
  - destruct M.
  - destruct Ok as (_ & (Lv & Tl & _ & Id & _) & _ & _ & _ & Fr). destruct (lbit_path vz l Lv Tl _ _ M) as (pt & Ip & Rp & L).
    destruct (Id pt q0 Ip Iq Rp) as (a & d & x & I & L1 & L2). exists a, d, x. split; [exact I|lia].
  - destruct Ok as [O1 O2]. destruct M as [M|M]; [apply IHp|apply IHq]; auto.
  - destruct Ok as [O1 O2]. apply IHt; auto.
  - destruct Ok as (O1 & O2 & O3). destruct M as [M|M]; [apply IHt|apply IHe]; auto.
  - destruct Ok as [O1 O2]. apply IHi; auto.
  - apply IHp; auto.
  - destruct Ok as (O1 & O2 & O3). destruct M as [M|M]; [apply IHp|apply IHr]; auto.
Qed.

(** [b1]: after the ports have been made. *)
Variable b1 : bld.
Variable ops : list (nat * range * nat).
Hypothesis Pm : ports_made h ports b1 ops.
Notation Hk := (Hk ports b1).
(** The first node of the blocks. *)
Variable G0 : nat.

(** * One block *)
(** As [Bd], in the netlist. *)
Definition Bnode (b : bld) (X : ghX) (C : ghC) (n : nat) : Prop := forall v1 v2,
  (forall m, G0 <= m < n -> joined (bdeps b) m n -> same X C m v1 v2) ->
  (forall t j, pended (bpend b) n t (Z.of_nat j) -> (forall p, In p ports -> t <> fp_id p) -> v1 t j = v2 t j) -> same X C n v1 v2.
Definition Bdrv (b : bld) (X : ghX) (C : ghC) (p : pst V) (t j : nat) : Prop := forall v1 v2,
  (forall n, G0 <= n < bnext b -> drives_global (bdm b) t (Z.of_nat j) n -> Hk b n t j -> same X C n v1 v2) -> prun p v1 t j = prun p v2 t j.
Definition fresh_from (N : nat) (X : ghX) (C : ghC) : Prop := forall n v, N <= n -> C n v = None /\ forall t j, X n v t j = None.
Lemma Bnode_grow b b' X C X' C' n : bgrow b b' -> ext (S n) X C X' C' -> Bnode b X C n -> Bnode b' X' C' n.
Proof.
  intros G E B v1 v2 H1 H2. apply (same_ext _ _ _ _ _ _ _ _ E); [lia|]. apply B.
  - intros m L J. apply (same_ext _ _ _ _ _ _ _ _ E); [lia|]. apply H1; [exact L|]. eapply joined_incl; [apply (g_dep _ _ G)|exact J].
  - intros t j P. apply H2. eapply pended_incl; [apply (g_pend _ _ G)|exact P].
Qed.
Lemma Bdrv_grow b b' X C X' C' p t j : bgrow b b' -> ext (bnext b) X C X' C' -> Bdrv b X C p t j -> Bdrv b' X' C' p t j.
Proof.
  intros G E B v1 v2 H. apply B. intros n L D K. apply (same_ext _ _ _ _ _ _ _ _ E); [lia|]. apply H.
  - pose proof (g_next _ _ G). lia.
  - now apply (g_dm _ _ G).
  - eapply Hk_grow; eauto.
Qed.

Lemma one_proc s x X C : In x procs -> gok (fb s) -> (forall q, In q ports -> bvt (fb s) (fp_id q) = bvt b1 (fp_id q)) -> G0 <= bnext (fb s) -> fresh_from (bnext (fb s)) X C ->
  exists s' X' C', run_proc vz rb h nm ports width s x = DOk s' /\ gok (fb s') /\ bgrow (fb s) (fb s') /\ ext (bnext (fb s)) X C X' C' /\
    fresh_from (bnext (fb s')) X' C' /\
    (forall n, bnext (fb s) <= n < bnext (fb s') -> Bnode (fb s') X' C' n) /\
    (forall t j, may (pr_body x) t j -> Bdrv (fb s') X' C' (pr_body x) t j) /\
    exists new, fns s' = fns s ++ new.
Proof.
  intros Ix G Vt LG Fr. destruct (Cb x Ix) as [Se Ok Tp La Rd Rg]. destruct (stmt_made _ Ok) as (p & Ep). destruct (Rg p Ep) as [Al Fit].
  set (N0 := bnext (fb s)) in *. set (W := all_writes p).
  destruct (top_block vz istrue hits rb h ports nm (w_hints _ _ _ _ _ _ Wf) W Al N0 (pr_body x) Tp (start N0) X C (fun v => v) (fun _ _ => False) (fun _ _ => False) (fun _ => False) p)
    as (s1 & X1 & C1 & E1 & (G1 & Xe & Fr1 & Ba1 & _) & Iv); auto.
  { split; [apply incl_refl|]. intros t b I lo hi (l & w & Iw & -> & ->) L1 L2. exact (Fit l t w b Iw I L1 L2). }
  { intros n L. cbn in L. lia. }
  { split; cbn.
    - intros sy. unfold defs. cbn. destruct sy; apply okd_empty.
    - reflexivity.
    - intros t i m H. destruct (hasA_nil _ _ _ _ _ _ H).
    - intros t j m H. destruct (hasA_nil _ _ _ _ _ _ H).
    - intros v t j _. right. split; [tauto|]. split; [reflexivity|]. intros n L. apply Fr. exact L. }
  unfold run_proc. rewrite Ep. cbn [fb]. unfold run_block. fold N0. rewrite E1. cbn [dbind]. unfold finalize.
  assert (Fl : flv (fxs s1) = []) by (rewrite (proj2 G1); reflexivity). rewrite Fl. cbn [process_lv dbind cur fxs fnext fnodes fdeps fpend].
  set (b0 := Bld (fnext (fxs s1)) (bnodes (fb s)) (bvt (fb s)) (bdm (fb s)) (bdeps (fb s) ++ fdeps (fxs s1)) (bpend (fb s) ++ fpend (fxs s1))).
  pose proof (gle_next _ _ G1) as Le1. cbn in Le1.
  assert (W0 : bgrow (fb s) b0).
  { split; cbn; auto using incl_refl; intros y I; apply in_or_app; now left. }
  set (blk := combine (seq 0 (length (adefs (cur s1)))) (adefs (cur s1))).
  assert (Blk : forall sy d, In (sy, d) blk -> d = defs (cur s1) sy).
  { intros sy d I. unfold blk in I. unfold defs. apply In_nth with (d := (0, dm_empty)) in I. destruct I as (k & Lk & E).
    rewrite combine_length, seq_length, Nat.min_id in Lk. rewrite combine_nth in E by (now rewrite seq_length). injection E as E1' E2'.
    rewrite seq_nth in E1' by exact Lk. cbn in E1'. subst k. now symmetry. }
  pose proof (v_ok _ _ _ _ _ _ _ _ _ Iv) as Oa.
  destruct (merge_ok nm ports width blk b0) as (b2 & E2 & G2 & W2 & D2).
  { exact G. }
  { intros sy d I. rewrite (Blk sy d I). split; [apply (ok_dok _ _ _ (Oa sy))|apply (ok_uns _ _ _ (Oa sy))]. }
  rewrite Se, E2. cbn [dbind]. eexists _, X1, C1. split; [reflexivity|]. cbn [fb fns]. split; [exact G2|]. split; [eapply P_Flow6.grow_trans; eauto|].
  split; [exact Xe|]. pose proof (g_next _ _ W2) as Le2. cbn in Le2. split; [|split; [|split]].
  - intros n v L. apply Fr1. lia.
  - intros n L. destruct (Nat.lt_ge_cases n (fnext (fxs s1))) as [Ln|Ln].
    + intros v1 v2 H1 H2. apply (Ba1 n); [lia|exact (fun q => q)| |].
      * intros m Lm J. apply H1; [lia|]. eapply joined_incl; [|exact J]. intros e I. apply (g_dep _ _ W2). cbn. apply in_or_app. now right.
      * intros t j P. apply H2. eapply pended_incl; [|exact P]. intros e I. apply (g_pend _ _ W2). cbn. apply in_or_app. now right.
    + intros v1 v2 _ _. destruct (Fr1 n v1 Ln) as [A1 A2], (Fr1 n v2 Ln) as [A3 A4]. split; [congruence|]. intros t j. now rewrite A2, A4.
  - intros t j My v1 v2 H. pose proof (La t j My) as Mu.
    assert (Dr : forall m, hasA (cur s1) t (Z.of_nat j) m -> same X1 C1 m v1 v2).
    { intros m Ha. pose proof (v_lt _ _ _ _ _ _ _ _ _ Iv _ _ _ Ha) as Lm. destruct Ha as (y & l & Iy & By & El & Im).
      assert (It : In (t, defs (cur s1) t) blk).
      { unfold blk. unfold defs in *. destruct (Nat.lt_ge_cases t (length (adefs (cur s1)))) as [L|L].
        - replace (t, nth t (adefs (cur s1)) dm_empty) with (nth t (combine (seq 0 (length (adefs (cur s1)))) (adefs (cur s1))) (0, dm_empty)).
          + apply nth_In. rewrite combine_length, seq_length. lia.
          + rewrite combine_nth by (now rewrite seq_length). rewrite seq_nth by exact L. reflexivity.
        - rewrite nth_overflow in Iy by exact L. destruct Iy. }
      destruct (D2 t _ y l It Iy El) as [D3 D4]. apply H; [lia|apply D3; auto|].
      destruct (ok_in _ _ _ (Oa t) y Iy) as (lb & w & Iw & Ew1 & Ew2).
      destruct (writes_paths (pr_body x) p lb t w Ok Ep Iw) as (lhs & pt & a & c & Id & Ip & Rp & Ea & Ec & L1 & L2 & L3 & Cut).
      rewrite Ew1, Ew2, Ea, Ec in D4. destruct By as [By1 By2]. apply (hook_ok vz rb h nm ports conns asgs Wf b1 ops Pm b2 m t a c j l); auto; [lia| |].
      - intros q' Iq' Eq'. destruct (Id pt q' Ip Iq') as (lo & hi & x0 & I0 & L0 & L0'); [congruence|]. exists lo, hi, x0. split; [exact I0|lia].
      - unfold b0 in D4. cbn [bvt] in D4. rewrite (hook_same nm ports (bvt (fb s)) (bvt b1)) in D4; [exact D4|].
        intros p' Ip'. apply port_refs_in in Ip'. destruct Ip' as (q' & Iq' & ->). now apply Vt. }
    destruct (v_val _ _ _ _ _ _ _ _ _ Iv v1 t j eq_refl) as [(m1 & P1 & P2 & P3)|(Nd & _)]; [|destruct Nd; now right].
    destruct (v_val _ _ _ _ _ _ _ _ _ Iv v2 t j eq_refl) as [(m2 & Q1 & Q2 & Q3)|(Nd & _)]; [|destruct Nd; now right].
    destruct (Dr m1 P1) as [_ S1]. destruct (Dr m2 Q1) as [_ S2].
    rewrite (S1 t j) in P2. rewrite <- (S2 t j) in Q2. pose proof (v_lt _ _ _ _ _ _ _ _ _ Iv _ _ _ P1). pose proof (v_lt _ _ _ _ _ _ _ _ _ Iv _ _ _ Q1).
    pose proof (P3 m2 _ (proj1 H1) Q2). pose proof (Q3 m1 _ (proj1 H0) P2).
    assert (m1 = m2) by lia. subst m2. rewrite S2 in Q2. congruence.
  - eauto.
Qed.

Lemma all_procs : forall l s X C, incl l procs -> gok (fb s) -> bvt (fb s) = bvt b1 -> G0 <= bnext (fb s) -> fresh_from (bnext (fb s)) X C ->
  exists s' X' C', run_procs vz rb h nm ports width s l = DOk s' /\ gok (fb s') /\ bgrow (fb s) (fb s') /\ ext (bnext (fb s)) X C X' C' /\
    fresh_from (bnext (fb s')) X' C' /\
    (forall n, bnext (fb s) <= n < bnext (fb s') -> Bnode (fb s') X' C' n) /\
    (forall x t j, In x l -> may (pr_body x) t j -> Bdrv (fb s') X' C' (pr_body x) t j).
Proof.
  induction l as [|x l IH]; intros s X C Il G Vt LG Fr; cbn [run_procs].
  - exists s, X, C. split; [reflexivity|]. split; [exact G|]. split; [apply P_Flow6.grow_refl|]. split; [apply P_Proc2.ext_refl|]. split; [exact Fr|]. split; [intros n L; lia|]. intros x t j [].
  - destruct (one_proc s x X C (Il x (or_introl eq_refl)) G (fun q _ => f_equal (fun f => f (fp_id q)) Vt) LG Fr) as (s1 & X1 & C1 & E1 & G1 & W1 & Xe1 & F1 & N1 & D1 & _). rewrite E1. cbn [dbind].
    pose proof (g_next _ _ W1) as L1.
    destruct (IH s1 X1 C1) as (s2 & X2 & C2 & E2 & G2 & W2 & Xe2 & F2 & N2 & D2); auto.
    { intros y I. apply Il. now right. } { rewrite (g_vt _ _ W1). exact Vt. } { lia. }
    exists s2, X2, C2. split; [exact E2|]. split; [exact G2|]. split; [eapply P_Flow6.grow_trans; eauto|]. split; [eapply P_Proc2.ext_trans; eauto|]. split; [exact F2|]. split.
    + intros n L. destruct (Nat.lt_ge_cases n (bnext (fb s1))) as [Ln|Ln]; [|apply N2; lia].
      eapply Bnode_grow; [exact W2|intros k Lk; apply Xe2; lia|]. apply N1. lia.
    + intros y t j [<-|I] M; [|now apply D2]. eapply Bdrv_grow; eauto.
Qed.
End Main.

Section Cone.
Context {V : Type}.
Variable vz : V.
Variable istrue : list V -> bool.
Variable hits : list V -> list V -> bool.
Variable rb : bool.
Variable h : hints.
Variable nm : nat -> str.
Variable ports : list fport.
Variable width : nat -> Z.
Variable conns : list (fconn V).
Variable asgs : list (fasg V).
Variable procs : list (fproc V).
Notation env := (nat -> nat -> V).
Hypothesis Wf : wf_design vz rb h ports conns asgs.
Hypothesis Cb : forall x, In x procs -> comb_block vz rb h ports x.
Notation prun := (prun vz istrue hits).
Notation ghX := (nat -> env -> nat -> nat -> option V).
Notation ghC := (nat -> env -> option nat).
Definition by_procs (s i : nat) : Prop := exists x, In x procs /\ may (pr_body x) s i.
Lemma by_procs_dec s i : by_procs s i \/ ~ by_procs s i.
Proof.
  unfold by_procs. clear Cb Wf. induction procs as [|x l IH].
  - right. intros (x & [] & _).
  - destruct (may_dec (pr_body x) s i) as [M|M].
    + left. exists x. split; [now left|exact M].
    + destruct IH as [(y & I & Y)|N]; [left; exists y; split; [now right|exact Y]|]. right. intros (y & [<-|I] & Y); [contradiction|]. apply N. eauto.
Qed.
Notation Prov := (Prov vz ports conns asgs by_procs).
Notation Dr := (Dr vz ports conns asgs by_procs).

Lemma pstate_built : exists b1 ops s G0 (X : ghX) (C : ghC),
  pflow_state vz rb h nm ports width conns asgs procs = DOk s /\ ports_made h ports b1 ops /\ bgrow b1 (fb s) /\ gok (fb s) /\
  (forall p n lo hi k, In p ports -> PN b1 n (fp_id p) lo hi -> lo <= k <= hi -> in_range (fp_drivers p) true k ->
     Prov b1 (fb s) n (fp_sy p) k) /\
  (forall t j, driven ports conns asgs t j -> Dr b1 (fb s) t j) /\
  (forall n, G0 <= n < bnext (fb s) -> Bnode ports G0 (fb s) X C n) /\
  (forall x t j, In x procs -> may (pr_body x) t j -> Bdrv vz istrue hits ports b1 G0 (fb s) X C (pr_body x) t j).
Proof.
  destruct (state_built vz rb h nm ports conns asgs Wf by_procs) as (b1 & ops & s & Es & Pm & Gr & Gk & Pp & Dd).
  { intros p k Ip (x & Ix & M). eapply may_driver; eauto. apply (cb_ok _ _ _ _ _ (Cb x Ix)). }
  destruct (all_procs vz istrue hits rb h nm ports width conns asgs procs Wf Cb b1 ops Pm (bnext (fb s)) procs s (fun _ _ _ _ => None) (fun _ _ => None))
    as (s' & X & C & Es' & Gk' & W' & _ & _ & Nn & Nd); auto using incl_refl.
  { apply (g_vt _ _ Gr). }
  { intros n v _. auto. }
  exists b1, ops, s', (bnext (fb s)), X, C. unfold pflow_state. rewrite Es. cbn [dbind]. split; [exact Es'|]. split; [exact Pm|].
  split; [eapply P_Flow6.grow_trans; eauto|]. split; [exact Gk'|]. split; [|split; [|split; auto]].
  - intros p n lo hi k I1 I2 I3 I4. eapply Prov_grow; eauto.
  - intros t j D. eapply Dr_grow; eauto.
Qed.

Inductive item := IBit (t j : nat) | IEv (n : nat).
Lemma proc_cone s nl q n lo hi cone :
  pflow vz rb h nm ports width conns asgs procs = Some (s, nl) -> In q ports -> In (n, BPort (fp_id q) (zrange lo hi)) (bnodes (fb s)) ->
  getCombFanIn nl n = Some cone -> (forall m, In m cone -> ~ Reach1 (CombBack nl) m m) ->
  forall v1 v2, psettled vz istrue hits conns asgs procs v1 -> psettled vz istrue hits conns asgs procs v2 -> pagree_undriven ports conns asgs procs v1 v2 ->
  (forall p m a c i, free_input ports conns p i -> In m cone -> In (m, BPort (fp_id p) (zrange a c)) (bnodes (fb s)) -> a <= i <= c ->
     v1 (fp_sy p) i = v2 (fp_sy p) i) ->
  forall i, lo <= i <= hi -> v1 (fp_sy q) i = v2 (fp_sy q) i.
Proof.
  intros Fl Iq In_ Fi Ac v1 v2 [S1 T1] [S2 T2] U Ag i Li. destruct pstate_built as (b1 & ops & s' & G0 & X & C & Es & Pm & Gr & Gk & Pp & Dd & Nn & Nd).
  unfold pflow in Fl. rewrite Es in Fl. destruct (emit_all (bvt (fb s')) (bdm (fb s')) (bpend (fb s'))) as [ds|] eqn:Em; [|discriminate].
  destruct (drun (empty_netlist s') (bdeps (fb s') ++ ds)) as [nl'|] eqn:Dn; [|discriminate]. injection Fl as <- <-.
  assert (Rg0 : reachable outEdgeIndexThreshold (ng (empty_netlist s'))) by apply mk_graph_reachable.
  assert (Pe : forall a b, pair_ann (empty_netlist s') a b = []) by (intros a b; unfold pair_ann; cbn [ng empty_netlist]; now rewrite no_edges).
  destruct (drun_conn _ _ _ Rg0 Pe Dn) as (Rg & Ni & _ & Cn).
  assert (W : WF nl') by (apply (c01 _ _ Rg)). destruct (fanIn_of nl' n cone W Fi) as [Ic Rc].
  set (b := fb s') in *.
  assert (Old : forall m p a c, In (m, BPort p (zrange a c)) (bnodes b) -> PN b1 m p a c).
  { intros m p a c I. destruct (g_new _ _ Gr _ _ I) as [J|J]; [exact J|discriminate]. }
  assert (Edge : forall m n', (exists e, In e (bdeps b ++ ds) /\ dsrc e = n' /\ dtgt e = m) -> CombBack nl' m n').
  { intros m n' (e & Ie & <- & <-). split; [now apply Cn|]. rewrite Ni. now apply (no_state h ports b1 ops). }
  assert (Back : forall m n' t j, Rd ports b1 b m t j -> drives_global (bdm b) t (Z.of_nat j) n' -> Hk ports b1 b n' t j -> CombBack nl' m n').
  { intros m n' t j R D H. apply Edge. destruct R as [[(p & Ip & Ps & Pn & Bp) Np]|(p & a & c & Ip & N & Ep & L & Nr)].
      - destruct (emit_all_has _ _ _ _ p Em Ip) as (l & El & Il).
        assert (Vn : bvt b (psym p) = None).
        { rewrite (g_vt _ _ Gr), (pm_vt _ _ _ _ Pm), vt_run_sym. destruct (ops_of (psym p) ops) as [|[r k] rest] eqn:Eo; [reflexivity|].
          assert (Io : In (psym p, r, k) ops) by (apply ops_of_in; rewrite Eo; now left). apply (pm_ops _ _ _ _ Pm) in Io.
          destruct (pm_nodes _ _ _ _ Pm _ _ Io) as (q0 & lo0 & hi0 & a0 & c0 & x0 & Iq0 & Ek & _). injection Ek as Ek _.
          exfalso. apply (Np q0 Iq0). congruence. }
        subst t. destruct (emit_drivers (bvt b) (bdm b) p m (Z.of_nat j) n' l Pn Vn) as (e & Ie & E1 & E2 & _); auto.
        { intros d Ed. exact (Gk _ _ Ed). }
        exists e. split; [apply in_or_app; right; now apply Il|auto].
      - destruct (H p m a c Ip Ep N L) as [Y|(e & Ie & E1 & E2 & _)]; [contradiction|]. exists e. split; [apply in_or_app; now left|auto]. }
  assert (Cl : forall m m', In m cone -> CombBack nl' m m' -> In m' cone).
  { intros m m' I R. apply Rc. apply Rc in I. eapply reach_step; eauto. }
  set (sm := fun y => match y with IBit t j => v1 t j = v2 t j | IEv m => same X C m v1 v2 end).
  set (Pr := fun m y => match y with IBit t j => Prov b1 b m t j | IEv m' => m = m' /\ G0 <= m < bnext b end).
  set (Rr := fun m y => match y with IBit t j => Rd ports b1 b m t j | IEv m' => G0 <= m' < m /\ m < bnext b /\ joined (bdeps b) m' m end).
  assert (Pv : forall m y, In m cone -> Pr m y -> sm y \/ exists A : item -> Prop, ((forall z, A z -> sm z) -> sm y) /\ forall z, A z -> Rr m z).
  { intros m [t j|m'] I; cbn [Pr sm].
    - intros [(p & a & c & Fp & <- & N & L)|(A & D & H)].
      + left. eapply Ag; eauto. apply (g_old _ _ Gr). exact N.
      + right. exists (fun z => match z with IBit t' j' => A t' j' | IEv _ => False end). split.
        * intros Q. apply (D v1 v1 v2 v2); [now apply settled_round..| |intros t' j' Y; exact (Q (IBit t' j') Y)]. intros t' j' N1 N2. apply U. intros [Y|Y]; contradiction.
        * intros [t' j'|]; [exact (H t' j')|intros []].
    - intros [<- L]. right. exists (Rr m). split; [|auto]. intros Q. apply (Nn m L).
      + intros m' L' J. apply (Q (IEv m')). cbn. tauto.
      + intros t j P Np. apply (Q (IBit t j)). left. auto. }
  assert (Re : forall m y, In m cone -> Rr m y -> sm y \/ exists A : nat -> item -> Prop, ((forall n' z, A n' z -> sm z) -> sm y) /\ forall n' z, A n' z -> Pr n' z /\ CombBack nl' m n').
  { intros m [t j|m'] I; cbn [Rr sm].
    - intros R. destruct (driven_dec nm ports conns asgs t j) as [D|N].
      + destruct (Dd t j D) as [(n' & D1 & D2 & D3 & _)|Q].
        * right. exists (fun k z => k = n' /\ z = IBit t j). split; [intros Q; exact (Q n' (IBit t j) (conj eq_refl eq_refl))|].
          intros k z [-> ->]. split; [exact D3|]. eapply Back; eauto.
        * left. apply (Q v1 v1 v2 v2); [now apply settled_round..| |intros ? ? []]. intros t' j' N1 N2. apply U. intros [Y|Y]; contradiction.
      + destruct (by_procs_dec t j) as [(x & Ix & M)|N']; [|left; apply U; intros [Y|Y]; contradiction].
        right. exists (fun k z => z = IEv k /\ G0 <= k < bnext b /\ drives_global (bdm b) t (Z.of_nat j) k /\ Hk ports b1 b k t j). split.
        * intros Q. rewrite (T1 x t j Ix M), (T2 x t j Ix M). apply (Nd x t j Ix M). intros k L D K. apply (Q k (IEv k)). tauto.
        * intros k z (-> & L & D & K). split; [cbn; tauto|]. eapply Back; eauto.
    - intros (L & L' & e & Ie & E1 & E2). right. exists (fun k z => k = m' /\ z = IEv m'). split; [intros Q; exact (Q m' (IEv m') (conj eq_refl eq_refl))|].
      intros k z [-> ->]. split; [cbn; split; [reflexivity|lia]|]. apply Edge. exists e. split; [apply in_or_app; now left|auto]. }
  destruct (in_range_dec nm (fp_drivers q) true i) as [Y|Y].
  - apply (back2_prov _ _ cone Cl Ac _ _ sm Pv Re n (IBit (fp_sy q) i)); [exact Ic|]. cbn. eapply Pp; eauto.
  - apply (back2_read _ _ cone Cl Ac _ _ sm Pv Re n (IBit (fp_sy q) i)); [exact Ic|]. right. exists q, lo, hi. split; [exact Iq|]. split; [now apply Old|]. auto.
Qed.
End Cone.

Lemma pflow_wf {V} (vz : V) rb h nm ports width conns asgs procs s nl : pflow vz rb h nm ports width conns asgs procs = Some (s, nl) -> WF nl.
Proof.
  unfold pflow. destruct (pflow_state _ _ _ _ _ _ _ _ _) as [s'|]; [|discriminate]. destruct (emit_all _ _ _) as [ds|]; [|discriminate].
  destruct (drun (empty_netlist s') (bdeps (fb s') ++ ds)) as [nl'|] eqn:Dn; [|discriminate]. intros [= <- <-].
  assert (Pe : forall a b, pair_ann (empty_netlist s') a b = []) by (intros a b; unfold pair_ann; cbn [ng empty_netlist]; now rewrite no_edges).
  destruct (drun_conn _ _ _ (mk_graph_reachable (bnext (fb s')) [] : reachable outEdgeIndexThreshold (ng (empty_netlist s'))) Pe Dn) as (Rg & _). exact (c01 _ _ Rg).
Qed.
