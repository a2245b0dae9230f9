(** Proofs about the clocks of registers. *)
From Verif Require Import Base M_Graph M_Range M_Netlist M_DFS M_Path M_Annot M_Interval M_Heap M_Drivers M_Pending M_DFA M_Builder M_Slice M_Port M_Flow M_Proc M_Query
  S_Graph S_Reach S_Netlist S_Annot S_Interval S_Drivers S_Pending S_DFA S_Builder S_Slice S_Port S_Flow S_Proc S_Prec S_Prec2 S_Total S_Query S_Clock
  P_Graph P_DFS P_Path P_Interval P_Heap P_Drivers P_DriversX P_Annot P_Pending P_Pending2 P_DFA P_DFA2 P_Builder P_Slice P_Slice2 P_Port P_Port2 P_Port3 P_Flow P_Flow2 P_Flow3 P_Flow4 P_Flow5 P_Flow6 P_Flow7 P_Flow8
  P_Prec P_Prec2 P_Prec3 P_Prec4 P_AnnotX P_Proc2 P_Proc3 P_Prec5 P_Prec6 P_Prec7 P_Total P_Prec8 P_Query.

(** * Edge kinds *)
Lemma setVariable_rest x sy eb y fl : setVariable x sy eb = Some (y, fl) -> akind y = akind x /\ adis y = adis x.
Proof.
  unfold setVariable. destruct (match asym x, sy with Some p, Some q => str_eqb p q | _, _ => false end).
  - destruct (isContiguousWith (abounds x) eb) as [[]|]; try discriminate; [|intros [= <- <-]; auto].
    destruct (unionWith (abounds x) eb); [|discriminate]. intros [= <- <-]. auto.
  - intros [= <- <-]. auto.
Qed.
Section Kinds.
Variable K : edgekind -> Prop.
Definition kinded (l : list eattr) : Prop := forall x, In x l -> K (akind x) /\ adis x = false.
Lemma ann_kinded l sy eb k l' : ann_dep l sy eb k = Some l' -> K k -> kinded l -> kinded l'.
Proof.
  unfold ann_dep. intros E H F. destruct l as [|x l].
  - cbn in E. destruct sy; injection E as <-; intros y [<-|[]]; cbn; auto.
  - destruct (setVariable x sy eb) as [[y []]|] eqn:Sv; [| |discriminate].
    + injection E as <-. intros z [<-|I]; [|apply F; now right]. cbn [setEdgeKind akind adis]. split; [exact H|]. destruct (setVariable_rest _ _ _ _ _ Sv) as [_ ->]. apply F. now left.
    + assert (Ed : setVariable default_attr sy eb = Some (EAttr EKNone sy eb false, true)) by (now destruct sy).
      rewrite Ed in E. injection E as <-. intros z [<-|I]; [apply F; now left|]. apply in_app_or in I. destruct I as [I|[<-|[]]]; [apply F; now right|cbn; auto].
Qed.
Lemma arun_kinded nl0 : forall ds l l', arun nl0 l ds = Some l' -> (forall a b sy r k, In (DDep a b sy r k) ds -> K k) -> (forall a b, In (DPlain a b) ds -> K EKNone) -> kinded l -> kinded l'.
Proof.
  induction ds as [|d ds IH]; intros l l' E H H0 F; cbn [arun] in E; [injection E as <-; exact F|].
  destruct (astep nl0 l d) as [m|] eqn:Ea; [|discriminate]. apply (IH m l' E); [intros a b sy r k I; apply (H a b sy r k); now right|intros a b I; apply (H0 a b); now right|].
  destruct d as [a b|a b sy r k]; cbn [astep] in Ea.
  - injection Ea as <-. destruct l; [|exact F]. intros x [<-|[]]. cbn. split; [|reflexivity]. apply (H0 a b). now left.
  - eapply ann_kinded; eauto. eapply H. now left.
Qed.
End Kinds.

(** * Clocks are annotations *)
Lemma clocks_pair nl n m k : WF nl -> (Clocks nl n m k <-> k <> EKNone /\ exists x, In x (pair_ann nl m n) /\ akind x = k /\ adis x = false).
Proof.
  intros M. unfold Clocks, pair_ann. rewrite (mir_order _ M). split.
  - intros (e & Ie & Es & Ek & Nk & Ed). split; [exact Nk|]. exists (eatt nl (eid e)). split; [|auto]. apply in_map_iff. exists e. split; [reflexivity|].
    apply filter_In. split; [exact Ie|]. unfold from. now apply Nat.eqb_eq.
  - intros (Nk & x & Ix & Ek & Ed). apply in_map_iff in Ix. destruct Ix as (e & <- & Ie). apply filter_In in Ie. destruct Ie as [Ie F]. unfold from in F. apply Nat.eqb_eq in F. exists e. auto.
Qed.
Lemma emit_kind vt dm p n i m ds : pnode p = Some n -> vt_lookup vt (psym p) (pbounds p) = None ->
  (forall d, dm (psym p) = Some d -> dok d /\ allvalid d) ->
  emitEdgesFor vt dm p = DOk ds -> bit (pbounds p) i -> drives_global dm (psym p) i m ->
  exists eb, In (DDep m n (Some (pref p)) eb (pkind p)) ds.
Proof.
  intros N V G E B (d & Dm & x & l & Ix & Bi & Gl & Im). destruct (G d Dm) as [K Va].
  unfold emitEdgesFor in E. rewrite N, V, Dm in E. unfold forEachDriverInterval, dm_find in E.
  destruct (each_interval_spec d Va (ivfind (fst (toPair (pbounds p))) (snd (toPair (pbounds p))) (ivs d))) as (out & Eo & S).
  { intros y I. now apply in_ivfind in I. }
  rewrite Eo in E. cbn [dbind] in E. injection E as <-.
  assert (Io : In (Range (ilo x) (ihi x), l) out).
  { apply S. exists x. split; [|auto]. apply in_ivfind. split; [exact Ix|]. unfold toPair. cbn [fst snd].
    rewrite bit_lu in B. unfold lower, upper in *. lia. }
  pose proof (inter_bits (Range (ilo x) (ihi x)) (pbounds p)) as Ib.
  assert (Bx : bit_in (Range (ilo x) (ihi x)) i) by (unfold bit_in, lower, upper; cbn; lia).
  assert (Bp : bit_in (pbounds p) i) by exact B.
  destruct (intersection (Range (ilo x) (ihi x)) (pbounds p)) as [eb|] eqn:X; [|destruct (Ib i); auto].
  exists eb. apply in_flat_map. exists (Range (ilo x) (ihi x), l). split; [exact Io|]. cbn [fst snd]. rewrite X. apply in_map_iff. eauto.
Qed.

Section G.
Context {V : Type}.
Variable vz : V.
Variable rb : bool.
Variable h : hints.
Variable nm : nat -> str.
Variable width : nat -> Z.
Variable ports : list fport.
Variable conns : list (fconn V).
Variable asgs : list (fasg V).
Variable procs : list (fproc V).
Hypothesis Wf : wf_design vz rb h ports conns asgs.
Hypothesis One : one_driver ports conns asgs.
Hypothesis Npn : no_port_names ports asgs.
Hypothesis Ap : blocks_apart vz rb h ports conns asgs procs.
Hypothesis Wd : forall s, (0 <= width s)%Z.
Notation pflow := (pflow vz rb h nm ports width conns asgs procs).
Notation clocks_block := (clocks_block rb width conns).

Lemma hasNode_true g n : hasNode g n = true <-> In n (gnodes g).
Proof. rewrite hasNode_memb. apply memb_In. Qed.

Lemma clocks_sound s nl : pflow = Some (s, nl) ->
  exists role, (pieces vz rb width ports conns asgs procs (bnodes (fb s)) nl role /\ pannotates vz rb width conns nm nl role) /\
    events_right rb width conns nl role /\ events_found rb width conns nl role /\ events_divided rb width conns nl role.
Proof.
  intros Fl. pose proof (pflow_wf _ _ _ _ _ _ _ _ _ _ _ Fl) as Wn.
  destruct (pieces_made vz rb h nm width ports conns asgs procs Wf One Npn Ap Wd s nl Fl) as (role & P & b1 & W & D & ds & So & Ar & Pd & Em & Dk & Dr & Nd).
  assert (Rg0 : reachable outEdgeIndexThreshold (ng (empty_netlist s))) by apply mk_graph_reachable.
  assert (Pe : forall a b, pair_ann (empty_netlist s) a b = []) by (intros a b; unfold pair_ann; cbn [ng empty_netlist]; now rewrite no_edges).
  destruct (drun_ann _ _ _ _ Rg0 eq_refl Dr) as (_ & _ & _ & _ & A). setoid_rewrite Pe in A.
  assert (Res : forall n x t lo hi, hasNode (ng nl) n = true -> role n = Register x t lo hi -> exists res, getSensitivity nl n = Some res /\ NoDup res /\ forall m k, In (m, k) res <-> Clocks nl n m k).
  { intros n x t lo hi Hn R. destruct (c20 nl n Wn) as (res & E & Nr & H & _); [now apply hasNode_true|]. exists res. split; [exact E|]. split; [exact Nr|]. apply H.
    apply (pi_state _ _ _ _ _ _ _ _ _ _ (proj1 P) n Hn). eauto 6. }
  assert (Hit : forall n x t lo hi m k sy eb, role n = Register x t lo hi -> (forall b, role m <> Block b) -> In (DDep m n sy eb k) (bdeps (fb s) ++ ds) ->
    (forall k', clocks_block (role m) x k' -> k' = k) -> exists y, In y (pair_ann nl m n) /\ akind y = k /\ adis y = false).
  { intros n x t lo hi m k sy0 eb R Nb Ie Un.
    assert (F : kinded (fun k' => k' = k) (pair_ann nl m n)).
    { refine (arun_kinded _ _ _ _ _ (A m n) _ _ _); [| |intros y []].
      - intros a b sy r k' J. unfold onp in J. apply filter_In in J. destruct J as [J Q].
        apply deq_true in Q. cbn [dsrc dtgt] in Q. destruct Q as [-> ->]. destruct (Dk _ J) as (_ & _ & v & _ & _ & [[-> Bl]|(x' & sy' & lo' & hi' & i & R' & Is' & Wi & L)]).
        + destruct (Nb _ (Bl _ _ _ _ R)).
        + rewrite R in R'. injection R' as <- <- <- <-. apply Un. exists v, i. auto.
      - intros a b J. unfold onp in J. apply filter_In in J. destruct J as [J Q]. apply deq_true in Q. cbn [dsrc dtgt] in Q. destruct Q as [-> ->].
        destruct (Dk _ J) as (_ & _ & [(z' & _ & R' & _)|(x' & _ & R')]); rewrite R in R'; discriminate R'. }
    destruct (pair_ann nl m n) as [|y r] eqn:Ey.
    - exfalso. specialize (A m n). rewrite Ey in A. apply (proj2 (arun_nonempty _ _ _ _ A)); [|reflexivity]. right. intros Q.
      assert (J : In (DDep m n sy0 eb k) (onp m n (bdeps (fb s) ++ ds))) by (apply filter_In; split; [exact Ie|apply deq_true; auto]). rewrite Q in J. destruct J.
    - exists y. split; [now left|]. apply F. now left. }
  exists role. split; [exact P|]. split; [|split].
  - intros n x t lo hi Hn R. destruct (Res n x t lo hi Hn R) as (res & E & Nr & H). exists res. split; [exact E|]. split; [exact Nr|]. intros m k I. apply H in I. pose proof I as (e & Ie & Es & _).
    apply clocks_pair in I; [|exact Wn]. destruct I as (Nk & y & Iy & Ey & _). split; [exact Nk|]. split; [apply hasNode_true; rewrite <- Es; apply (mir_in _ Wn n e Ie)|].
    assert (F : kinded (fun k => k = EKNone \/ clocks_block (role m) x k) (pair_ann nl m n)).
    { refine (arun_kinded _ _ _ _ _ (A m n) _ _ _); [|auto|intros z []]. intros a b sy r k' J. unfold onp in J. apply filter_In in J. destruct J as [J Q].
      apply deq_true in Q. cbn [dsrc dtgt] in Q. destruct Q as [-> ->]. destruct (Dk _ J) as (_ & _ & u & _ & _ & [[-> _]|(x' & sy' & lo' & hi' & j & R' & Is & Wj & L)]); [now left|].
      right. rewrite R in R'. injection R' as <- <- <- <-. exists u, j. auto. }
    destruct (F y Iy) as [[F1|F1] _]; congruence.
  - intros n x t lo hi m z k Hn R Hm Rm (u & j & Is & Wj & Lj) Nk Un. destruct (Res n x t lo hi Hn R) as (res & E & Nr & H). exists res. split; [exact E|]. apply H. apply clocks_pair; [exact Wn|]. split; [exact Nk|].
    pose proof (proj1 (Nd n) Hn) as Ln. pose proof (proj1 (Nd m) Hm) as Lm.
    pose proof (p_valid _ _ _ _ _ _ _ _ _ _ _ _ _ So n Ln) as Vn. rewrite R in Vn. destruct Vn as (Ix & _).
    pose proof (p_valid _ _ _ _ _ _ _ _ _ _ _ _ _ So m Lm) as Vm. rewrite Rm in Vm. cbn [valid_piece] in Vm. pose proof Wj as Wz. rewrite Rm in Wz. cbn [piece_writes] in Wz.
    set (p := Pend u (nm u) (Range 0 (width u - 1)) (Some n) k).
    assert (Ip : In p (bpend (fb s))).
    { apply (Ar n x t lo hi Ln R). unfold clocks. apply in_flat_map. exists (u, k). split; [exact Is|]. cbn [fst snd]. destruct (Z.eqb_spec (width u) 0); [lia|]. now left. }
    assert (Bb : bit (pbounds p) (Z.of_nat j)) by (cbn [pbounds p]; rewrite bit_lu, lower_range, upper_range by lia; lia).
    assert (Nl : vt_lookup (bvt (fb s)) (psym p) (pbounds p) = None).
    { unfold vt_lookup. cbn [psym p]. destruct (bvt (fb s) u) as [mm|] eqn:Ev; [|reflexivity]. destruct (find _ _) as [y|] eqn:F; [|reflexivity]. exfalso.
      apply find_some in F. destruct F as [Iy Ry]. apply in_ivfind in Iy. destruct Iy as [Iy _].
      destruct (p_vts _ _ _ _ _ _ _ _ _ _ _ _ _ So u mm y) as (Ly & x' & lo' & hi' & Ry' & E1 & E2); [|exact Ev|exact Iy|].
      - intros q Iq. apply (bk_clocks _ _ _ _ _ (ba_shape _ _ _ _ _ _ _ Ap x Ix)); [apply (in_map fst) in Is; exact Is|exact Iq].
      - pose proof (p_valid _ _ _ _ _ _ _ _ _ _ _ _ _ So _ Ly) as Vy. rewrite Ry' in Vy. destruct Vy as (Ix' & _ & _ & My).
        unfold range_eqb in Ry. apply andb_true_iff in Ry. rewrite !Z.eqb_eq in Ry. cbn [pbounds p rleft rright] in Ry. destruct Ry as [Q1 Q2].
        apply (ba_driven _ _ _ _ _ _ _ Ap x' u j Ix'); [apply My; lia|]. exact (writes_driven vz rb ports conns asgs z u j Vm Wz). }
    destruct (emit_all_has _ _ _ _ _ Em Ip) as (l & El & Il).
    destruct (emit_kind _ (bdm (fb s)) p n (Z.of_nat j) m l eq_refl Nl) as (eb & Ie); [|exact El|exact Bb|exact (Pd m z u j Lm Rm Wz)|].
    { intros d Ed. destruct (p_dm _ _ _ _ _ _ _ _ _ _ _ _ _ So _ _ Ed) as [K1 K2 K3 K4]. split; [exact K1|apply K2]. }
    apply Il in Ie. cbn [pref pkind p] in Ie.
    refine (Hit n x t lo hi m k (Some (nm u)) eb R _ _ Un); [intros y Q; congruence|apply in_or_app; now right].
  - intros n x t lo hi m y u w k Hn R Hm Rm Ew Is Nk Un. destruct (Res n x t lo hi Hn R) as (res & E & Nr & H).
    pose proof (proj1 (Nd n) Hn) as Ln. pose proof (proj1 (Nd m) Hm) as Lm.
    pose proof (p_valid _ _ _ _ _ _ _ _ _ _ _ _ _ So n Ln) as Vn. rewrite R in Vn. destruct Vn as (Ix & _).
    pose proof (p_valid _ _ _ _ _ _ _ _ _ _ _ _ _ So m Lm) as Vm. rewrite Rm in Vm. destruct Vm as (Iy & _ & _ & My).
    set (p := Pend u (nm u) (Range 0 (width u - 1)) (Some n) k).
    assert (Ip : In p (bpend (fb s))).
    { apply (Ar n x t lo hi Ln R). unfold clocks. apply in_flat_map. exists (u, k). split; [exact Is|]. cbn [fst snd]. destruct (Z.eqb_spec (width u) 0); [lia|]. now left. }
    destruct (Ar m y u 0 w Lm Rm) as (_ & mm & z & Ev & Iz & E1 & E2).
    assert (Fd : exists z', vt_lookup (bvt (fb s)) (psym p) (pbounds p) = Some (ival z') /\ In z' mm /\ ilo z' = 0%Z /\ ihi z' = Z.of_nat w).
    { unfold vt_lookup. cbn [psym p]. rewrite Ev. destruct (find _ _) as [z'|] eqn:F.
      - apply find_some in F. destruct F as [Iz' Rz]. apply in_ivfind in Iz'. unfold range_eqb in Rz. apply andb_true_iff in Rz. rewrite !Z.eqb_eq in Rz. cbn [pbounds p rleft rright] in Rz.
        exists z'. split; [reflexivity|]. split; [apply Iz'|lia].
      - exfalso. assert (I : In z (ivfind (fst (toPair (pbounds p))) (snd (toPair (pbounds p))) mm)).
        { apply in_ivfind. split; [exact Iz|]. cbn [pbounds p]. unfold toPair. cbn [fst snd rleft rright]. unfold lower, upper; cbn [rleft rright]; lia. }
        pose proof (find_none _ _ F z I) as Q. cbn [pbounds p] in Q. unfold range_eqb in Q. cbn [rleft rright] in Q. rewrite E1, E2 in Q.
        rewrite andb_false_iff, !Z.eqb_neq in Q. lia. }
    destruct Fd as (z' & Lk & Iz' & E1' & E2').
    destruct (p_vts _ _ _ _ _ _ _ _ _ _ _ _ _ So u mm z') as (Lz & y' & lo' & hi' & Rz & F1 & F2); [|exact Ev|exact Iz'|].
    { intros q Iq. apply (bk_clocks _ _ _ _ _ (ba_shape _ _ _ _ _ _ _ Ap x Ix)); [apply (in_map fst) in Is; exact Is|exact Iq]. }
    assert (lo' = 0) by lia. assert (hi' = w) by lia. subst lo' hi'.
    pose proof (p_valid _ _ _ _ _ _ _ _ _ _ _ _ _ So _ Lz) as Vz. rewrite Rz in Vz. destruct Vz as (Iy' & _ & _ & My').
    assert (y' = y) by (apply (ba_one _ _ _ _ _ _ _ Ap y' y u 0 Iy' Iy); [apply My'|apply My]; lia). subst y'.
    exists res, (ival z'). split; [exact E|]. split; [|split; [now apply Nd|congruence]]. apply H. apply clocks_pair; [exact Wn|]. split; [exact Nk|].
    destruct (emit_all_has _ _ _ _ _ Em Ip) as (l & El & Il). unfold emitEdgesFor in El. rewrite Lk in El. cbn [pnode p] in El. injection El as <-.
    refine (Hit n x t lo hi (ival z') k (Some (nm u)) (pbounds p) R _ _ _); [intros b Q; congruence|apply in_or_app; right; apply Il; now left|].
    intros k' C. apply Un. rewrite Rm, <- Rz. exact C.
Qed.
End G.
