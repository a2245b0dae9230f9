(** Proofs about whole designs: the cone of a port determines its value. *)
From Coq Require Import Sorted.
From Verif Require Import Base M_Graph M_Range M_Netlist M_DFS M_Path M_Annot M_Interval M_Heap M_Drivers M_Pending M_DFA M_Builder M_Slice M_Port M_Flow
  S_Graph S_Reach S_Netlist S_Annot S_Interval S_Drivers S_Pending S_DFA S_Builder S_Slice S_Port S_Flow
  P_Graph P_DFS P_Path P_Interval P_Heap P_Drivers P_DriversX P_Annot P_Pending P_Pending2 P_DFA P_DFA2 P_Builder P_Slice P_Slice2 P_Port P_Flow P_Flow2 P_Flow3 P_Flow4 P_Flow5 P_Flow6 P_Flow7.

Lemma fanIn_of nl n l : WF nl -> getCombFanIn nl n = Some l -> In n l /\ forall m, In m l <-> Reach (CombBack nl) n m.
Proof.
  intros W E. unfold getCombFanIn in E. destruct (dfs_bwd nl (pred_comb_back nl) n) as [tr|] eqn:D; [|discriminate]. injection E as <-.
  destruct (dfs_spec _ _ _ _ _ _ D) as (H1 & H2 & H3 & _).
  assert (HA : forall a b, Arc (nins nl) esrc (pred_comb_back nl) a b <-> CombBack nl a b) by (intros; now apply arc_comb_back).
  split.
  - destruct (ev_nodes tr); [discriminate|]. injection H3 as ->. now left.
  - intros m. rewrite H2. split; intros R; apply (reach_iff _ _ HA); exact R.
Qed.

Lemma no_edges n a : outs (nst (mk_graph n []) a) = [].
Proof.
  unfold mk_graph. rewrite app_nil_r. assert (H : forall n g, (forall a, outs (nst g a) = []) ->
    match run outEdgeIndexThreshold g (repeat OAddNode n) with Some (g', _) => forall a, outs (nst g' a) = [] | None => True end).
  { clear n. induction n as [|n IH]; intros g H; [exact H|]. cbn [repeat run step addNode].
    specialize (IH (fst (addNode g))). cbn [fst addNode] in IH. destruct (run outEdgeIndexThreshold _ (repeat OAddNode n)) as [[g' xs]|]; [|exact I].
    apply IH. intros b. cbn [nst]. unfold upd. destruct (Nat.eqb_spec b (nextn g)); [reflexivity|apply H]. }
  specialize (H n empty_graph (fun _ => eq_refl)). cbn [map]. destruct (run outEdgeIndexThreshold empty_graph (repeat OAddNode n)) as [[g' xs]|]; [apply H|reflexivity].
Qed.

Section Main.
Context {V : Type}.
Variable vz : V.
Variable rb : bool.
Variable h : hints.
Variable nm : nat -> str.
Variable ports : list fport.
Variable conns : list (fconn V).
Variable asgs : list (fasg V).
Hypothesis Wf : wf_design vz rb h ports conns asgs.
Notation settled := (settled vz conns asgs).
Notation undriven := (agree_undriven ports conns asgs).

(** * Decisions *)
Lemma in_range_dec ds x i : in_range ds x i \/ ~ in_range ds x i.
Proof.
  induction ds as [|[[lo hi] y] ds IH]; [right; intros (lo & hi & [] & _)|].
  destruct IH as [(a & c & I & L)|N]; [left; exists a, c; split; [now right|exact L]|].
  destruct (Bool.bool_dec y x) as [->|Ne].
  - destruct (le_dec lo i) as [L1|L1]; [destruct (le_dec i hi) as [L2|L2]|].
    + left. exists lo, hi. split; [now left|auto].
    + right. intros (a & c & [Q|I] & L); [inversion Q; subst; lia|]. apply N. exists a, c. auto.
    + right. intros (a & c & [Q|I] & L); [inversion Q; subst; lia|]. apply N. exists a, c. auto.
  - right. intros (a & c & [Q|I] & L); [inversion Q; subst; congruence|]. apply N. exists a, c. auto.
Qed.
Lemma ex_dec {A} (P : A -> Prop) (l : list A) : (forall x, P x \/ ~ P x) -> (exists x, In x l /\ P x) \/ ~ exists x, In x l /\ P x.
Proof.
  intros D. induction l as [|a l IH]; [right; intros (x & [] & _)|]. destruct (D a) as [Pa|Na]; [left; exists a; split; [now left|exact Pa]|].
  destruct IH as [(x & I & Px)|N]; [left; exists x; split; [now right|exact Px]|]. right. intros (x & [<-|I] & Px); [auto|]. apply N. eauto.
Qed.
Lemma lbits_dec (e : expr V) (x : nat * nat) : In x (lbits e) \/ ~ In x (lbits e).
Proof. destruct (in_dec (fun a b : nat * nat => ltac:(decide equality; apply Nat.eq_dec) : {a = b} + {a <> b}) x (lbits e)); auto. Qed.
Lemma driven_dec t j : driven ports conns asgs t j \/ ~ driven ports conns asgs t j.
Proof.
  destruct (ex_dec (fun p => fp_sy p = t /\ in_range (fp_drivers p) true j) ports) as [(p & I & E & R)|N1].
  { intros p. destruct (Nat.eq_dec (fp_sy p) t); [|right; tauto]. destruct (in_range_dec (fp_drivers p) true j); tauto. }
  { left. eapply driven_port; eauto. }
  destruct (ex_dec (fun a => In (t, j) (lbits (fa_lhs a))) asgs) as [(a & I & R)|N2]; [intros a; apply lbits_dec|left; eapply driven_asg; eauto|].
  destruct (ex_dec (fun c => fc_out c = true /\ In (t, j) (lbits (fc_actual c))) conns) as [(c & I & O & R)|N3].
  { intros c. destruct (fc_out c); [|right; intros [Q _]; discriminate]. destruct (lbits_dec (fc_actual c) (t, j)); tauto. }
  { left. eapply driven_conn; eauto. }
  right. intros [p I E R|a I R|c I O R]; [apply N1|apply N2|apply N3]; eauto.
Qed.

(** * What has been built *)
Section Built.
(** What else drives bits. *)
Variable ex : nat -> nat -> Prop.
Hypothesis Hex : forall p k, In p ports -> ex (fp_sy p) k -> exists a d x, In (a, d, x) (fp_drivers p) /\ a <= k <= d.
Notation Prov := (Prov vz ports conns asgs ex).
Notation Dr := (Dr vz ports conns asgs ex).
Lemma state_built : exists b1 ops s, flow_state vz rb h nm ports conns asgs = DOk s /\ ports_made h ports b1 ops /\ grow b1 (fb s) /\ gok (fb s) /\
  (forall p n lo hi k, In p ports -> PN b1 n (fp_id p) lo hi -> lo <= k <= hi -> in_range (fp_drivers p) true k ->
     Prov b1 (fb s) n (fp_sy p) k) /\
  (forall t j, driven ports conns asgs t j -> Dr b1 (fb s) t j).
Proof.
  destruct (all_ports h (w_hints _ _ _ _ _ _ Wf) ports [] bempty [] (ports_start h)) as (b1 & ops & E1 & Pm & _ & _); cbn [app].
  { apply (w_ids _ _ _ _ _ _ Wf). }
  { apply (w_syms _ _ _ _ _ _ Wf). }
  { apply (w_drivers _ _ _ _ _ _ Wf). }
  cbn [app] in Pm. destruct (all_conns vz rb h nm ports conns asgs Wf b1 ops Pm ex Hex conns b1 (incl_refl _) (pm_gok _ _ _ _ Pm) eq_refl (le_n _)) as (b2 & E2 & G2 & W2 & P2 & D2).
  destruct (all_asgs vz rb h nm ports conns asgs Wf ex b1 ops Pm asgs (FL b2 []) (incl_refl _) G2 (g_vt _ _ W2)) as (s & E3 & G3 & W3 & D3).
  exists b1, ops, s. unfold flow_state. rewrite E1. cbn [dbind]. rewrite E2. cbn [dbind]. split; [exact E3|]. split; [exact Pm|].
  assert (W13 : grow b1 (fb s)) by (eapply grow_trans; eauto). split; [exact W13|]. split; [exact G3|].
  assert (Pp : forall p n lo hi k, In p ports -> PN b1 n (fp_id p) lo hi -> lo <= k <= hi -> in_range (fp_drivers p) true k ->
     Prov b1 (fb s) n (fp_sy p) k).
  { intros p n lo hi k Ip N L R. destruct (ex_dec (fun c => fc_out c = false /\ fc_port c = fp_id p) conns) as [(c & Ic & Oc & Ec)|Nc].
    { intros c. destruct (fc_out c); [right; intros [Q _]; discriminate|]. destruct (Nat.eq_dec (fc_port c) (fp_id p)); tauto. }
    - apply Prov_grow with (b := b2); [exact W3|]. destruct (w_conn _ _ _ _ _ _ Wf c Ic) as (_ & _ & p' & Ip' & Ei & Es & _).
      assert (p' = p) by (eapply same_id; eauto; congruence). subst p'. rewrite Es. eapply P2; eauto. rewrite Ec. exact N.
    - left. exists p, lo, hi. split; [|auto]. split; [exact Ip|]. split; [exact R|]. intros c Ic Oc Ec. apply Nc. eauto. }
  split; [exact Pp|]. intros t j [p Ip Es R|a Ia I|c Ic Oc I].
  - destruct R as (a & c & I & L). destruct (pm_cover _ _ _ _ Pm p a c true j Ip I L) as (n & lo & hi & N & Ln).
    assert (R : in_range (fp_drivers p) true j) by (exists a, c; auto). subst t. left. exists n.
    split; [apply (g_dm _ _ W13), (pm_input _ _ _ _ Pm p n lo hi j Ip N Ln R)|]. split; [|split; [now apply (Pp p n lo hi j)|pose proof (pm_ids _ _ _ _ Pm _ _ N); pose proof (g_next _ _ W13); lia]].
    intros q pn lo' hi' Iq Eq N' L'. assert (q = p) by (eapply same_sy; eauto). subst q. now left.
  - eapply D3; eauto.
  - eapply Dr_grow; [exact W3|]. eapply D2; eauto.
Qed.

End Built.

Lemma no_state b1 ops s n : ports_made h ports b1 ops -> grow b1 (fb s) -> nkind (node_info s n) <> KState.
Proof.
  intros Pm G. unfold node_info. destruct (find _ (bnodes (fb s))) as [[m k]|] eqn:F.
  - apply find_some in F. destruct F as [I _]. destruct (g_new _ _ G _ _ I) as [J| ->]; [|discriminate].
    destruct (pm_nodes _ _ _ _ Pm _ _ J) as (p & lo & hi & a & c & x & _ & -> & _). discriminate.
  - destruct (find _ (fns s)) as [[m k]|]; [destruct k|]; discriminate.
Qed.

Lemma cone_determines s nl q n lo hi cone :
  flow vz rb h nm ports conns asgs = Some (s, nl) -> In q ports -> In (n, BPort (fp_id q) (zrange lo hi)) (bnodes (fb s)) ->
  getCombFanIn nl n = Some cone -> (forall m, In m cone -> ~ Reach1 (CombBack nl) m m) ->
  forall v1 v2, settled v1 -> settled v2 -> undriven v1 v2 ->
  (forall p m a c i, free_input ports conns p i -> In m cone -> In (m, BPort (fp_id p) (zrange a c)) (bnodes (fb s)) -> a <= i <= c ->
     v1 (fp_sy p) i = v2 (fp_sy p) i) ->
  forall i, lo <= i <= hi -> v1 (fp_sy q) i = v2 (fp_sy q) i.
Proof.
  intros Fl Iq In_ Fi Ac v1 v2 S1 S2 U Ag i Li. destruct (state_built (fun _ _ => False)) as (b1 & ops & s' & Es & Pm & Gr & Gk & Pp & Dd); [intros p k _ []|].
  unfold flow in Fl. rewrite Es in Fl. destruct (emit_all (bvt (fb s')) (bdm (fb s')) (bpend (fb s'))) as [ds|] eqn:Em; [|discriminate].
  destruct (drun (empty_netlist s') (bdeps (fb s') ++ ds)) as [nl'|] eqn:Dn; [|discriminate]. injection Fl as <- <-.
  assert (Rg0 : reachable outEdgeIndexThreshold (ng (empty_netlist s'))) by apply mk_graph_reachable.
  assert (Pe : forall a b, pair_ann (empty_netlist s') a b = []) by (intros a b; unfold pair_ann; cbn [ng empty_netlist]; now rewrite no_edges).
  destruct (drun_conn _ _ _ Rg0 Pe Dn) as (Rg & Ni & _ & Cn).
  assert (W : WF nl') by (apply (c01 _ _ Rg)). destruct (fanIn_of nl' n cone W Fi) as [Ic Rc].
  set (b := fb s') in *.
  assert (Old : forall m p a c, In (m, BPort p (zrange a c)) (bnodes b) -> PN b1 m p a c).
  { intros m p a c I. destruct (g_new _ _ Gr _ _ I) as [J|J]; [exact J|discriminate]. }
  set (same := fun t j => v1 t j = v2 t j).
  assert (Back : forall m n' t j, Rd ports b1 b m t j -> drives_global (bdm b) t (Z.of_nat j) n' -> Hk ports b1 b n' t j -> CombBack nl' m n').
  { intros m n' t j R D H. split; [|rewrite Ni; now apply (no_state b1 ops)].
    assert (Q : exists e, In e (bdeps b ++ ds) /\ dsrc e = n' /\ dtgt e = m).
    { destruct R as [[(p & Ip & Ps & Pn & Bp) Np]|(p & a & c & Ip & N & Ep & L & Nr)].
      - destruct (emit_all_has _ _ _ _ p Em Ip) as (l & El & Il).
        assert (Vn : bvt b (psym p) = None).
        { rewrite (g_vt _ _ Gr), (pm_vt _ _ _ _ Pm), vt_run_sym. destruct (ops_of (psym p) ops) as [|[r k] rest] eqn:Eo; [reflexivity|].
          assert (Io : In (psym p, r, k) ops) by (apply ops_of_in; rewrite Eo; now left). apply (pm_ops _ _ _ _ Pm) in Io.
          destruct (pm_nodes _ _ _ _ Pm _ _ Io) as (q0 & lo0 & hi0 & a0 & c0 & x0 & Iq0 & Ek & _). injection Ek as Ek _.
          exfalso. apply (Np q0 Iq0). congruence. }
        subst t. destruct (emit_drivers (bvt b) (bdm b) p m (Z.of_nat j) n' l Pn Vn) as (e & Ie & E1 & E2 & _); auto.
        { intros d Ed. exact (Gk _ _ Ed). }
        exists e. split; [apply in_or_app; right; now apply Il|auto].
      - destruct (H p m a c Ip Ep N L) as [X|(e & Ie & E1 & E2 & _)]; [contradiction|]. exists e. split; [apply in_or_app; now left|auto]. }
    destruct Q as (e & Ie & <- & <-). now apply Cn. }
  assert (Cl : forall m m', In m cone -> CombBack nl' m m' -> In m' cone).
  { intros m m' I R. apply Rc. apply Rc in I. eapply reach_step; eauto. }
  assert (Pv : forall m t j, In m cone -> Prov vz ports conns asgs (fun _ _ => False) b1 b m t j ->
    same t j \/ exists A : nat -> nat -> Prop, ((forall t' j', A t' j' -> same t' j') -> same t j) /\ forall t' j', A t' j' -> Rd ports b1 b m t' j').
  { intros m t j I [(p & a & c & Fp & <- & N & L)|(A & D & H)].
    - left. eapply Ag; eauto. apply (g_old _ _ Gr). exact N.
    - right. exists A. split; [|exact H]. intros Q. apply (D v1 v1 v2 v2); auto; now apply settled_round. }
  assert (Re : forall m t j, In m cone -> Rd ports b1 b m t j -> same t j \/ exists n', Prov vz ports conns asgs (fun _ _ => False) b1 b n' t j /\ CombBack nl' m n').
  { intros m t j I R. destruct (driven_dec t j) as [D|N]; [|left; now apply U].
    destruct (Dd t j D) as [(n' & D1 & D2 & D3 & _)|Q]; [|left; apply (Q v1 v1 v2 v2); [now apply settled_round..|intros ? ? N _; now apply U|intros ? ? []]]. right. exists n'. split; [exact D3|]. eapply Back; eauto. }
  destruct (in_range_dec (fp_drivers q) true i) as [X|X].
  - apply (back_prov _ cone Cl Ac _ _ same Pv Re n); [exact Ic|]. eapply Pp; eauto.
  - apply (back_read _ cone Cl Ac _ _ same Pv Re n); [exact Ic|]. right. exists q, lo, hi. split; [exact Iq|]. split; [now apply Old|]. auto.
Qed.
End Main.

(** * Checking a cone *)
(** Every edge between nodes of the cone goes up in rank. *)
Definition ranked (nl : netlist) (rank : nat -> nat) (cone : list nat) : bool :=
  forallb (fun a => forallb (fun e => negb (existsb (Nat.eqb (etgt e)) cone) || (rank a <? rank (etgt e))) (nouts nl a)) cone.
Lemma ranked_acyclic nl n cone rank : WF nl -> getCombFanIn nl n = Some cone -> ranked nl rank cone = true ->
  forall m, In m cone -> ~ Reach1 (CombBack nl) m m.
Proof.
  intros W F R. destruct (fanIn_of nl n cone W F) as [_ Rc].
  assert (Cl : forall m m', In m cone -> CombBack nl m m' -> In m' cone /\ rank m' < rank m).
  { intros m m' I C. assert (I' : In m' cone) by (apply Rc; apply Rc in I; eapply reach_step; eauto). split; [exact I'|].
    destruct C as [(e & Ie & Et & _) _]. unfold ranked in R. rewrite forallb_forall in R. specialize (R m' I'). rewrite forallb_forall in R. specialize (R e Ie).
    apply orb_true_iff in R. destruct R as [R|R]; [|apply Nat.ltb_lt in R; now rewrite Et in R].
    apply negb_true_iff in R. rewrite <- not_true_iff_false in R. destruct R. apply existsb_exists. exists m. split; [exact I|]. rewrite Et. apply Nat.eqb_refl. }
  intros m I (c & C1 & C2). destruct (Cl m c I C1) as [Ic Lc].
  assert (G : In m cone /\ rank m <= rank c).
  { revert C2. generalize m at 1 2 3. intros k C2. induction C2 as [|x y C2 IH H]; [auto|]. destruct IH as [Ix Lx]. destruct (Cl x y Ix H). split; [assumption|lia]. }
  lia.
Qed.

Lemma flow_wf {V} (vz : V) rb h nm ports conns asgs s nl : flow vz rb h nm ports conns asgs = Some (s, nl) -> WF nl.
Proof.
  unfold flow. destruct (flow_state _ _ _ _ _ _ _) as [s'|]; [|discriminate]. destruct (emit_all _ _ _) as [ds|]; [|discriminate].
  destruct (drun (empty_netlist s') (bdeps (fb s') ++ ds)) as [nl'|] eqn:Dn; [|discriminate]. intros [= <- <-].
  assert (Pe : forall a b, pair_ann (empty_netlist s') a b = []) by (intros a b; unfold pair_ann; cbn [ng empty_netlist]; now rewrite no_edges).
  destruct (drun_conn _ _ _ (mk_graph_reachable (bnext (fb s')) [] : reachable outEdgeIndexThreshold (ng (empty_netlist s'))) Pe Dn) as (Rg & _). exact (c01 _ _ Rg).
Qed.
