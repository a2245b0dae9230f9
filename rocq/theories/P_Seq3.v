(** Proofs about clocked blocks: cones of whole designs. *)
From Coq Require Import Sorted Permutation.
From Verif Require Import Base M_Graph M_Range M_Netlist M_DFS M_Path M_Annot M_Interval M_Heap M_Drivers M_Pending M_DFA M_Builder M_Slice M_Port M_Flow M_Proc
  S_Graph S_Reach S_Netlist S_Annot S_Interval S_Drivers S_Pending S_DFA S_Builder S_Slice S_Port S_Flow S_Proc S_Seq
  P_Graph P_DFS P_Path P_Interval P_Heap P_Drivers P_DriversX P_Annot P_Pending P_Pending2 P_DFA P_DFA2 P_Builder P_Slice P_Slice2 P_Port P_Flow P_Flow2 P_Flow3 P_Flow4 P_Flow5 P_Flow6 P_Flow7 P_Flow8
  P_Proc1 P_Proc2 P_Proc3 P_Seq1 P_Seq2.
Notation register := S_Seq.register.

Lemma run_procs_app {V} (vz : V) rb h nm ports width : forall l l' s, run_procs vz rb h nm ports width s (l ++ l') =
  dbind (run_procs vz rb h nm ports width s l) (fun s1 => run_procs vz rb h nm ports width s1 l').
Proof.
  induction l as [|x l IH]; intros l' s; cbn [app run_procs]; [reflexivity|]. destruct (run_proc _ _ _ _ _ _ s x) as [s1|]; cbn [dbind]; auto.
Qed.

Section Cone.
Context {V : Type}.
Variable vz : V.
Variable istrue : list V -> bool.
Variable hits : list V -> list V -> bool.
Variable rb : bool.
Variable h : hints.
Variable nm : nat -> str.
Variable ports : list fport.
Variable width : nat -> Z.
Variable conns : list (fconn V).
Variable asgs : list (fasg V).
Variable procs regs : list (fproc V).
Notation env := (nat -> nat -> V).
Hypothesis Wf : wf_design vz rb h ports conns asgs.
Hypothesis Cb : forall x, In x procs -> comb_block vz rb h ports x.
Hypothesis Wr : wf_regs vz rb h ports conns asgs procs regs.
(** The order in which the blocks are handled. *)
Variable all : list (fproc V).
Hypothesis Pa : Permutation all (procs ++ regs).
Notation prun := (prun vz istrue hits).
Notation ghX := (nat -> env -> nat -> nat -> option V).
Notation ghC := (nat -> env -> option nat).
Notation by_procs := (by_procs procs).
Notation reg := (register regs).
Definition other (t j : nat) : Prop := by_procs t j \/ reg t j.
Notation Prov := (Prov vz ports conns asgs other).
Notation Dr := (Dr vz ports conns asgs other).
Notation det := (det vz ports conns asgs other).
Notation Hk := (Hk ports).
Notation pf := (pflow vz rb h nm ports width conns asgs all).

Lemma Rd_incl b1 b b' n t j : incl (bpend b) (bpend b') -> Rd ports b1 b n t j -> Rd ports b1 b' n t j.
Proof. intros G [[P N]|H]; [left; split; [|exact N]|now right]. eapply pended_incl; [exact G|exact P]. Qed.
Lemma Prov_incl b1 b b' n t j : incl (bpend b) (bpend b') -> Prov b1 b n t j -> Prov b1 b' n t j.
Proof. intros G [H|(A & D & H)]; [now left|]. right. exists A. split; [exact D|]. intros t' j' Q. eapply Rd_incl; eauto. Qed.
Lemma Hk_incl b1 b b' n t j : incl (bdeps b) (bdeps b') -> Hk b1 b n t j -> Hk b1 b' n t j.
Proof.
  intros G H q pn lo hi I E P L. destruct (H q pn lo hi I E P L) as [X|(e & J & X)]; [now left|]. right. exists e. split; [now apply G|exact X].
Qed.

Record sbuilt (b1 : bld) (s : fl) (G0 : nat) (X : ghX) (C : ghC) : Prop := {
  sb_gok : gok (fb s);
  sb_prov : forall p n lo hi k, In p ports -> PN b1 n (fp_id p) lo hi -> lo <= k <= hi -> in_range (fp_drivers p) true k -> Prov b1 (fb s) n (fp_sy p) k;
  sb_driven : forall t j, driven ports conns asgs t j ->
    (exists n, drives_global (bdm (fb s)) t (Z.of_nat j) n /\ Hk b1 (fb s) n t j /\ Prov b1 (fb s) n t j /\ n < G0) \/ det (fun _ _ => False) t j;
  sb_le : G0 <= bnext (fb s);
  sb_node : forall n, G0 <= n < bnext (fb s) -> Bnode ports G0 (fb s) X C n;
  sb_proc : forall x t j, In x procs -> may (pr_body x) t j -> Bdrv vz istrue hits ports b1 G0 (fb s) X C (pr_body x) t j;
  sb_ports : forall m p w, In (m, BPort p w) (bnodes (fb s)) <-> In (m, BPort p w) (bnodes b1);
  sb_state : forall n t w, In (n, BState t w) (bnodes (fb s)) -> G0 <= n /\ exists x a c, In x regs /\ w = zrange a c /\ SNode vz istrue hits ports b1 G0 x (fb s) X C n t a c;
  sb_cover : forall t j, reg t j -> exists n a c, In (n, BState t (zrange a c)) (bnodes (fb s)) /\ a <= j <= c;
  sb_vt : forall t, (forall i, ~ reg t i) -> bvt (fb s) t = bvt b1 t }.

Lemma sstate_built : exists b1 ops s G0 X C,
  pflow_state vz rb h nm ports width conns asgs all = DOk s /\ ports_made h ports b1 ops /\ sbuilt b1 s G0 X C.
Proof.
  destruct (state_built vz rb h nm ports conns asgs Wf other) as (b1 & ops & s & Es & Pm & Gr & Gk & Pp & Dd).
  { intros p k Ip [(x & Ix & M)|(x & Ix & M)].
    - eapply may_driver; eauto. apply (cb_ok _ _ _ _ _ (Cb x Ix)).
    - eapply nmay_driver; eauto. apply (ck_ok _ _ _ _ _ (wr_block _ _ _ _ _ _ _ _ Wr x Ix)). }
  assert (Ns : forall n t w, ~ In (n, BState t w) (bnodes (fb s))).
  { intros n t w I. destruct (g_new _ _ Gr _ _ I) as [J|J]; [|discriminate]. destruct (pm_nodes _ _ _ _ Pm _ _ J) as (p & lo & hi & a & c & x & _ & Q & _). discriminate. }
  assert (Reg : forall t, by_regs regs t <-> exists i, reg t i).
  { intros t. split; [intros (x & i & I & M); exists i, x; auto|intros (i & x & I & M); exists x, i; auto]. }
  assert (Np : forall t, by_regs regs t -> forall q, In q ports -> t <> fp_id q).
  { intros t B q Iq. apply Reg in B. destruct B as (i & R). exact (wr_port _ _ _ _ _ _ _ _ Wr t i q R Iq). }
  destruct (all_tasks vz istrue hits rb h nm ports width conns asgs Wf b1 ops Pm (bnext (fb s)) procs Cb all procs regs s (fun _ _ _ _ => None) (fun _ _ => None) Pa (incl_refl _))
    as (s2 & X & C & Es2 & Gk2 & W2 & Xe2 & _ & Nn2 & Nd2 & St2 & Cv2).
  { apply (wr_nodup _ _ _ _ _ _ _ _ Wr). }
  { apply (wr_block _ _ _ _ _ _ _ _ Wr). }
  { intros x y t i j. apply (wr_one _ _ _ _ _ _ _ _ Wr). }
  { exact Gk. }
  { apply le_n. }
  { intros n v _. auto. }
  { intros n t w I. destruct (Ns n t w I). }
  { intros q Iq. now rewrite (g_vt _ _ Gr). }
  { intros t B. split; [|now apply Np]. rewrite (g_vt _ _ Gr), (pm_vt _ _ _ _ Pm), vt_run_sym. destruct (ops_of t ops) as [|[r k] rest] eqn:Eo; [reflexivity|].
    assert (Io : In (t, r, k) ops) by (apply ops_of_in; rewrite Eo; now left). apply (pm_ops _ _ _ _ Pm) in Io.
    destruct (pm_nodes _ _ _ _ Pm _ _ Io) as (q0 & lo0 & hi0 & a0 & c0 & x0 & Iq0 & Ek & _). injection Ek as Ek _.
    destruct (Np t B q0 Iq0 Ek). }
  exists b1, ops, s2, (bnext (fb s)), X, C. split; [|split; [exact Pm|]].
  { unfold pflow_state. rewrite Es. cbn [dbind]. exact Es2. }
  pose proof (tg_next _ _ _ W2) as L2. pose proof (tg_pend _ _ _ W2) as P2. pose proof (tg_dep _ _ _ W2) as D2. pose proof (tg_dm _ _ _ W2) as M2.
  split.
  - exact Gk2.
  - intros p n lo hi k I1 I2 I3 I4. eapply Prov_incl; [exact P2|]. now apply Pp with (lo := lo) (hi := hi).
  - intros t j D. destruct (Dd t j D) as [(n & A1 & A2 & A3 & A4)|A]; [left|now right]. exists n. split; [now apply M2|]. split; [eapply Hk_incl; [exact D2|exact A2]|].
    split; [eapply Prov_incl; [exact P2|exact A3]|exact A4].
  - exact L2.
  - exact Nn2.
  - exact Nd2.
  - intros m p w. split.
    + intros I. destruct (tg_new _ _ _ W2 _ _ I) as [J|[J|[(t & w' & Q) _]]]; [|discriminate..]. destruct (g_new _ _ Gr _ _ J) as [K|K]; [exact K|discriminate].
    + intros I. apply (tg_old _ _ _ W2), (g_old _ _ Gr), I.
  - intros n t w I. destruct (tg_new _ _ _ W2 _ _ I) as [J|[J|[_ L]]]; [destruct (Ns n t w J)|discriminate|]. split; [lia|]. apply St2; [exact I|lia].
  - intros t j (x & Ix & M). destruct (Cv2 x t j Ix M) as (n & a & c & I & _ & L). exists n, a, c. auto.
  - intros t N. rewrite (tg_vt _ _ _ W2); [now rewrite (g_vt _ _ Gr)|]. intros B. apply Reg in B. destruct B as (i & R). exact (N i R).
Qed.

(** What a node reads, seen in the result. *)
Definition reads_bit (s : fl) (m t j : nat) : Prop :=
  (exists p, In p (bpend (fb s)) /\ psym p = t /\ pnode p = Some m /\ bit (pbounds p) (Z.of_nat j)) \/
  exists q lo hi, In q ports /\ In (m, BPort (fp_id q) (zrange lo hi)) (bnodes (fb s)) /\ fp_sy q = t /\ lo <= j <= hi.

Lemma not_state s m : (forall t w, ~ In (m, BState t w) (bnodes (fb s))) -> nkind (node_info s m) <> KState.
Proof.
  intros N. unfold node_info. destruct (find _ (bnodes (fb s))) as [[m' k]|] eqn:F.
  - apply find_some in F. destruct F as [I E]. cbn in E. apply Nat.eqb_eq in E. subst m'. destruct k; try discriminate. destruct (N _ _ I).
  - destruct (find _ (fns s)) as [[m' k]|]; [destruct k|]; discriminate.
Qed.

Lemma state_dec (b : bld) m : (exists t w, In (m, BState t w) (bnodes b)) \/ forall t w, ~ In (m, BState t w) (bnodes b).
Proof.
  induction (bnodes b) as [|[k y] l IH]; [right; intros t w []|]. destruct IH as [(t & w & I)|N]; [left; exists t, w; now right|].
  destruct (Nat.eq_dec k m) as [->|Nk]; [|right; intros t w [Q|I]; [congruence|exact (N t w I)]].
  destruct y as [p0 w0|t0 w0|t0 w0|]; [right|right|left; exists t0, w0; now left|right]; intros t w [Q|I]; try discriminate Q; exact (N t w I).
Qed.

Lemma seq_gen s nl cone : pf = Some (s, nl) -> (forall m m', In m cone -> CombBack nl m m' -> In m' cone) -> (forall m, In m cone -> ~ Reach1 (CombBack nl) m m) ->
  forall v1 v2, psettled vz istrue hits conns asgs procs v1 -> psettled vz istrue hits conns asgs procs v2 -> ragree_undriven ports conns asgs procs regs v1 v2 ->
  (forall p m a c i, free_input ports conns p i -> In m cone -> In (m, BPort (fp_id p) (zrange a c)) (bnodes (fb s)) -> a <= i <= c ->
     v1 (fp_sy p) i = v2 (fp_sy p) i) ->
  (forall m t j, In m cone -> reads_bit s m t j -> reg t j -> v1 t j = v2 t j) ->
  (forall q n lo hi i, In q ports -> In n cone -> In (n, BPort (fp_id q) (zrange lo hi)) (bnodes (fb s)) -> lo <= i <= hi -> v1 (fp_sy q) i = v2 (fp_sy q) i) /\
  (forall x n t w j, In x regs -> In n cone -> In (n, BState t w) (bnodes (fb s)) -> bit w (Z.of_nat j) -> may (pr_body x) t j -> v1 t j = v2 t j ->
     after_edge vz istrue hits x v1 t j = after_edge vz istrue hits x v2 t j) /\
  ((forall n, n < bnext (fb s) -> In n cone) -> forall t j, ~ reg t j -> v1 t j = v2 t j).
Proof.
  intros Fl Cl Ac v1 v2 [S1 T1] [S2 T2] U Ag HR. destruct sstate_built as (b1 & ops & s' & G0 & X & C & Es & Pm & B).
  unfold pflow in Fl. rewrite Es in Fl. destruct (emit_all (bvt (fb s')) (bdm (fb s')) (bpend (fb s'))) as [ds|] eqn:Em; [|discriminate].
  destruct (drun (empty_netlist s') (bdeps (fb s') ++ ds)) as [nl'|] eqn:Dn; [|discriminate]. injection Fl as <- <-.
  assert (Rg0 : reachable outEdgeIndexThreshold (ng (empty_netlist s'))) by apply mk_graph_reachable.
  assert (Pe : forall a b, pair_ann (empty_netlist s') a b = []) by (intros a b; unfold pair_ann; cbn [ng empty_netlist]; now rewrite no_edges).
  destruct (drun_conn _ _ _ Rg0 Pe Dn) as (Rg & Ni & _ & Cn).
  destruct B as [Gk Pp Dd LG Nn Nd Bp St Cv Vt]. set (b := fb s') in *.
  assert (Nst : forall m, m < G0 -> forall t w, ~ In (m, BState t w) (bnodes b)) by (intros m L t w I; destruct (St m t w I); lia).
  assert (Edge : forall m n', (forall t w, ~ In (n', BState t w) (bnodes b)) -> (exists e, In e (bdeps b ++ ds) /\ dsrc e = n' /\ dtgt e = m) -> CombBack nl' m n').
  { intros m n' Ns (e & Ie & <- & <-). split; [now apply Cn|]. rewrite Ni. now apply not_state. }
  assert (Back : forall m n' t j, Rd ports b1 b m t j -> drives_global (bdm b) t (Z.of_nat j) n' -> Hk b1 b n' t j -> (forall t' w, ~ In (n', BState t' w) (bnodes b)) -> (forall i, ~ reg t i) -> CombBack nl' m n').
  { intros m n' t j R D H Ln Nr0. apply Edge; [exact Ln|]. destruct R as [[(p & Ip & Ps & Pn & Bb) Np]|(p & a & c & Ip & N & Ep & L & Nr)].
      - destruct (emit_all_has _ _ _ _ p Em Ip) as (l & El & Il).
        assert (Vn : bvt b (psym p) = None).
        { rewrite Vt by (rewrite Ps; exact Nr0). rewrite (pm_vt _ _ _ _ Pm), vt_run_sym. destruct (ops_of (psym p) ops) as [|[r k] rest] eqn:Eo; [reflexivity|].
          assert (Io : In (psym p, r, k) ops) by (apply ops_of_in; rewrite Eo; now left). apply (pm_ops _ _ _ _ Pm) in Io.
          destruct (pm_nodes _ _ _ _ Pm _ _ Io) as (q0 & lo0 & hi0 & a0 & c0 & x0 & Iq0 & Ek & _). injection Ek as Ek _.
          exfalso. apply (Np q0 Iq0). congruence. }
        subst t. destruct (emit_drivers (bvt b) (bdm b) p m (Z.of_nat j) n' l Pn Vn) as (e & Ie & E1 & E2 & _); auto.
        { intros d Ed. exact (Gk _ _ Ed). }
        exists e. split; [apply in_or_app; right; now apply Il|auto].
      - destruct (H p m a c Ip Ep N L) as [Y|(e & Ie & E1 & E2 & _)]; [contradiction|]. exists e. split; [apply in_or_app; now left|auto]. }
  assert (Alone : forall t j, pdriven ports conns asgs procs t j -> forall i, ~ reg t i).
  { intros t j D i R. exact (wr_alone _ _ _ _ _ _ _ _ Wr t i j R D). }
  assert (RdB : forall m t j, Rd ports b1 b m t j -> reads_bit s' m t j).
  { intros m t j [[(p & Ip & Ps & Pn & Bb) _]|(p & a & c & Ip & N & Ep & L & _)]; [left; exists p; auto|]. right. exists p, a, c. split; [exact Ip|]. split; [apply Bp; exact N|auto]. }
  assert (Un : forall t j, ~ driven ports conns asgs t j -> ~ other t j -> v1 t j = v2 t j).
  { intros t j N1 N2. apply U; [intros [Y|Y]; [contradiction|apply N2; now left]|intros R; apply N2; now right]. }
  set (sm := fun y => match y with IBit t j => v1 t j = v2 t j | IEv m => same X C m v1 v2 end).
  set (Pr := fun m y => match y with IBit t j => Prov b1 b m t j | IEv m' => m = m' /\ G0 <= m < bnext b end).
  set (Rr := fun m y => match y with IBit t j => Rd ports b1 b m t j | IEv m' => G0 <= m' < m /\ m < bnext b /\ joined (bdeps b) m' m end).
  assert (Stv : forall m t w, In (m, BState t w) (bnodes b) -> same X C m v1 v2).
  { intros m t w Is. destruct (St m t w Is) as (_ & x & a & c & _ & _ & Sn). destruct (sn_none _ _ _ _ _ _ _ _ _ _ _ _ _ _ Sn v1) as [A1 A2], (sn_none _ _ _ _ _ _ _ _ _ _ _ _ _ _ Sn v2) as [A3 A4].
    split; [congruence|]. intros t' j'. now rewrite A2, A4. }
  assert (Pv : forall m y, In m cone -> Pr m y -> sm y \/ exists A : item -> Prop, ((forall z, A z -> sm z) -> sm y) /\ forall z, A z -> Rr m z).
  { intros m [t j|m'] I; cbn [Pr sm].
    - intros [(p & a & c & Fp & <- & N & L)|(A & D & H)].
      + left. eapply Ag; eauto. apply Bp. exact N.
      + right. exists (fun z => match z with IBit t' j' => A t' j' | IEv _ => False end). split.
        * intros Q. apply (D v1 v1 v2 v2); [now apply settled_round..|exact Un|]. intros t' j' Y. exact (Q (IBit t' j') Y).
        * intros [t' j'|]; [exact (H t' j')|intros []].
    - intros [<- L]. right. exists (Rr m). split; [|auto]. intros Q. apply (Nn m L).
      + intros m' L' J. apply (Q (IEv m')). cbn. tauto.
      + intros t j P Np. apply (Q (IBit t j)). left. auto. }
  assert (Re : forall m y, In m cone -> Rr m y -> sm y \/ exists A : nat -> item -> Prop, ((forall n' z, A n' z -> sm z) -> sm y) /\ forall n' z, A n' z -> Pr n' z /\ CombBack nl' m n').
  { intros m [t j|m'] I; cbn [Rr sm].
    - intros R. destruct (driven_dec nm ports conns asgs t j) as [D|N].
      + destruct (Dd t j D) as [(n' & D1 & D2 & D3 & D4)|Q].
        * right. exists (fun k z => k = n' /\ z = IBit t j). split; [intros Q; exact (Q n' (IBit t j) (conj eq_refl eq_refl))|].
          intros k z [-> ->]. split; [exact D3|]. eapply Back; eauto. apply (Alone t j). now left.
        * left. apply (Q v1 v1 v2 v2); [now apply settled_round..|exact Un|intros ? ? []].
      + destruct (by_procs_dec procs t j) as [(x & Ix & M)|N'].
        * right. exists (fun k z => z = IEv k /\ G0 <= k < bnext b /\ drives_global (bdm b) t (Z.of_nat j) k /\ Hk b1 b k t j /\ forall t' w, ~ In (k, BState t' w) (bnodes b)). split.
          -- intros Q. rewrite (T1 x t j Ix M), (T2 x t j Ix M). apply (Nd x t j Ix M). intros k L D K. destruct (state_dec b k) as [(t' & w & Is)|Ns]; [eapply Stv; eauto|]. apply (Q k (IEv k)). tauto.
          -- intros k z (-> & L & D & K & Ns). split; [cbn; split; [reflexivity|lia]|]. eapply Back; eauto. apply (Alone t j). right. exists x. auto.
        * destruct (by_procs_dec regs t j) as [R'|N2]; left; [apply (HR m); auto|]. apply Un; [exact N|]. intros [Y|Y]; contradiction.
    - intros (L & L' & e & Ie & E1 & E2).
      destruct (state_dec b m') as [(t & w & Is)|Ns].
      + left. eapply Stv; eauto.
      + right. exists (fun k z => k = m' /\ z = IEv m'). split; [intros Q; exact (Q m' (IEv m') (conj eq_refl eq_refl))|].
        intros k z [-> ->]. split; [cbn; split; [reflexivity|lia]|]. apply Edge; [exact Ns|]. exists e. split; [apply in_or_app; now left|auto]. }
  split; [|split].
  - intros q n lo hi i Iq In_ Ip Li. apply Bp in Ip. destruct (in_range_dec nm (fp_drivers q) true i) as [Y|Y].
    + apply (back2_prov _ _ cone Cl Ac _ _ sm Pv Re n (IBit (fp_sy q) i)); [exact In_|]. cbn. eapply Pp; eauto.
    + apply (back2_read _ _ cone Cl Ac _ _ sm Pv Re n (IBit (fp_sy q) i)); [exact In_|]. right. exists q, lo, hi. auto.
  - intros x n t w j Ix In_ Is Bw M Ev. destruct (St n t w Is) as (Ln & x' & a & c & Ix' & -> & Sn). pose proof (sn_le _ _ _ _ _ _ _ _ _ _ _ _ _ _ Sn) as Lac.
    unfold zrange in Bw. rewrite P_DFA.bit_lu, lower_range, upper_range in Bw by lia. assert (Lj : a <= j <= c) by lia.
    assert (x = x') by (eapply (wr_one _ _ _ _ _ _ _ _ Wr); eauto; apply (sn_may _ _ _ _ _ _ _ _ _ _ _ _ _ _ Sn j Lj)). subst x'.
    destruct (sn_val _ _ _ _ _ _ _ _ _ _ _ _ _ _ Sn j Lj) as (m & lo & L0 & Lm & Ns & J & Val). unfold after_edge. apply Val; [|exact Ev].
    pose proof (sn_lt _ _ _ _ _ _ _ _ _ _ _ _ _ _ Sn) as Lb.
    assert (Q : forall k, chain lo (bdeps b) m k -> lo <= k <= m /\ In k cone /\ same X C k v1 v2).
    { intros k Ck. induction Ck as [|k k' Ck (Lk & Ik & _) Lk' J'].
      - split; [lia|]. split.
        + apply (Cl n m In_). apply Edge; [intros t' w; apply Ns; lia|]. destruct J as (e & Ie & E1 & E2). exists e. split; [apply in_or_app; now left|auto].
        + apply (back2_read _ _ cone Cl Ac _ _ sm Pv Re n (IEv m)); [exact In_|]. cbn. split; [lia|]. split; [exact Lb|exact J].
      - split; [lia|]. split.
        + apply (Cl k k' Ik). apply Edge; [intros t' w; apply Ns; lia|]. destruct J' as (e & Ie & E1 & E2). exists e. split; [apply in_or_app; now left|auto].
        + apply (back2_read _ _ cone Cl Ac _ _ sm Pv Re k (IEv k')); [exact Ik|]. cbn. split; [lia|]. split; [fold b in Lb; lia|exact J']. }
    intros k Ck. now apply Q.
  - intros All t j Nr. destruct (driven_dec nm ports conns asgs t j) as [D|N].
    + destruct (Dd t j D) as [(n' & D1 & D2 & D3 & D4)|Q]; [|apply (Q v1 v1 v2 v2); [now apply settled_round..|exact Un|intros ? ? []]].
      apply (back2_prov _ _ cone Cl Ac _ _ sm Pv Re n' (IBit t j)); [apply All; fold b; lia|exact D3].
    + destruct (by_procs_dec procs t j) as [(x & Ix & M)|N'].
      * rewrite (T1 x t j Ix M), (T2 x t j Ix M). apply (Nd x t j Ix M). intros k L D K.
        apply (back2_prov _ _ cone Cl Ac _ _ sm Pv Re k (IEv k)); [apply All; fold b; lia|cbn; split; [reflexivity|lia]].
      * apply Un; [exact N|]. intros [Y|Y]; contradiction.
Qed.
Lemma seq_cone s nl root cone : pf = Some (s, nl) -> getCombFanIn nl root = Some cone -> (forall m, In m cone -> ~ Reach1 (CombBack nl) m m) ->
  forall v1 v2, psettled vz istrue hits conns asgs procs v1 -> psettled vz istrue hits conns asgs procs v2 -> ragree_undriven ports conns asgs procs regs v1 v2 ->
  (forall p m a c i, free_input ports conns p i -> In m cone -> In (m, BPort (fp_id p) (zrange a c)) (bnodes (fb s)) -> a <= i <= c ->
     v1 (fp_sy p) i = v2 (fp_sy p) i) ->
  (forall m t j, In m cone -> reads_bit s m t j -> reg t j -> v1 t j = v2 t j) ->
  (forall q n lo hi i, In q ports -> In n cone -> In (n, BPort (fp_id q) (zrange lo hi)) (bnodes (fb s)) -> lo <= i <= hi -> v1 (fp_sy q) i = v2 (fp_sy q) i) /\
  (forall x n t w j, In x regs -> In n cone -> In (n, BState t w) (bnodes (fb s)) -> bit w (Z.of_nat j) -> may (pr_body x) t j -> v1 t j = v2 t j ->
     after_edge vz istrue hits x v1 t j = after_edge vz istrue hits x v2 t j).
Proof.
  intros Fl Fi Ac v1 v2 S1 S2 U A H. destruct (fanIn_of nl root cone (pflow_wf _ _ _ _ _ _ _ _ _ _ _ Fl) Fi) as [_ Rc].
  destruct (seq_gen s nl cone Fl) with (v1 := v1) (v2 := v2) as (T1 & T2 & _); auto.
  intros m m' I R. apply Rc. apply Rc in I. eapply reach_step; eauto.
Qed.

(** A node that reads the bit of a register has an edge from its State node. *)
Lemma reg_edge s nl m t j : pf = Some (s, nl) ->
  (forall p, In p (bpend (fb s)) -> pnode p = Some m -> (exists i, reg (psym p) i) -> exists n, In (n, BState (psym p) (pbounds p)) (bnodes (fb s))) ->
  reads_bit s m t j -> reg t j -> exists n w, In (n, BState t w) (bnodes (fb s)) /\ bit w (Z.of_nat j) /\ Conn nl n m.
Proof.
  intros Fl Whole R Rt. destruct sstate_built as (b1 & ops & s' & G0 & X & C & Es & Pm & B).
  unfold pflow in Fl. rewrite Es in Fl. destruct (emit_all (bvt (fb s')) (bdm (fb s')) (bpend (fb s'))) as [ds|] eqn:Em; [|discriminate].
  destruct (drun (empty_netlist s') (bdeps (fb s') ++ ds)) as [nl'|] eqn:Dn; [|discriminate]. injection Fl as <- <-.
  assert (Rg0 : reachable outEdgeIndexThreshold (ng (empty_netlist s'))) by apply mk_graph_reachable.
  assert (Pe : forall a b, pair_ann (empty_netlist s') a b = []) by (intros a b; unfold pair_ann; cbn [ng empty_netlist]; now rewrite no_edges).
  destruct (drun_conn _ _ _ Rg0 Pe Dn) as (Rg & Ni & _ & Cn). destruct B as [Gk Pp Dd LG Nn Nd Bp St Cv Vt].
  destruct R as [(p & Ip & Ps & Pn & Bb)|(q & lo & hi & Iq & Iw & Es' & L)].
  - destruct (Whole p Ip Pn) as (n & In_); [rewrite Ps; eauto|]. rewrite Ps in In_. exists n, (pbounds p). split; [exact In_|]. split; [exact Bb|].
    destruct (St n t (pbounds p) In_) as (_ & x & a & c & _ & Ew & Sn).
    destruct (emit_all_has _ _ _ _ p Em Ip) as (l & El & Il). unfold emitEdgesFor in El. rewrite Pn, Ps in El. rewrite Ew in El. rewrite (sn_look _ _ _ _ _ _ _ _ _ _ _ _ _ _ Sn) in El. injection El as <-.
    pose proof (Cn _ (in_or_app _ _ _ (or_intror (Il _ (or_introl eq_refl))))) as Q. exact Q.
  - destruct (Cv t j Rt) as (n & a & c & In_ & Lj). destruct (St n t _ In_) as (_ & x & a' & c' & _ & Ew & Sn). unfold zrange in Ew. injection Ew as Ea Ec. apply Nat2Z.inj in Ea, Ec. subst a' c'.
    exists n, (zrange a c). split; [exact In_|]. split; [unfold zrange; rewrite P_DFA.bit_lu, lower_range, upper_range by lia; lia|].
    apply Bp in Iw. destruct (sn_hook _ _ _ _ _ _ _ _ _ _ _ _ _ _ Sn j Lj q m lo hi Iq Es' Iw L) as [Y|(e & Ie & E1 & E2 & _)].
    + exfalso. apply (wr_alone _ _ _ _ _ _ _ _ Wr t j j Rt). left. now apply (driven_port _ _ _ _ _ q).
    + rewrite <- E1, <- E2. apply Cn. apply in_or_app. now left.
Qed.
End Cone.
