(** Proofs about designs with blocks: every edge of the netlist joins pieces of the design
    of which one feeds the other. *)
From Verif Require Import Base M_Graph M_Range M_Netlist M_DFS M_Path M_Annot M_Interval M_Heap M_Drivers M_Pending M_DFA M_Builder M_Slice M_Port M_Flow M_Proc
  S_Graph S_Reach S_Netlist S_Annot S_Interval S_Drivers S_Pending S_DFA S_Builder S_Slice S_Port S_Flow S_Proc S_Prec S_Prec2 S_Total
  P_Graph P_DFS P_Path P_Interval P_Heap P_Drivers P_DriversX P_Annot P_Pending P_Pending2 P_DFA P_DFA2 P_Builder P_Slice P_Slice2 P_Port P_Port2 P_Port3 P_Flow P_Flow2 P_Flow3 P_Flow4 P_Flow5 P_Flow6 P_Flow7 P_Flow8
  P_Prec P_Prec2 P_Prec3 P_Prec4 P_AnnotX P_Proc2 P_Proc3 P_Prec5 P_Prec6 P_Prec7 P_Total.

Lemma okd_right W T sy d : okd T sy d -> okd (W ++ T) sy d.
Proof. intros [A B C D]. split; auto. intros x I. apply inW_app. right. auto. Qed.

Section F.
Context {V : Type}.
Variable vz : V.
Variable rb : bool.
Variable h : hints.
Variable nm : nat -> str.
Variable width : nat -> Z.
Variable ports : list fport.
Variable conns : list (fconn V).
Variable asgs : list (fasg V).
Variable procs : list (fproc V).
Hypothesis Wf : wf_design vz rb h ports conns asgs.
Hypothesis Ap : blocks_apart vz rb h ports conns asgs procs.
Notation piece := (piece V).
Notation pw := (piece_writes rb conns).
Notation pr := (piece_reads vz rb width conns).
Notation PFeeds := (PFeeds vz rb width conns).
Notation valid := (valid_piece vz rb ports asgs procs).
Hypothesis Wd : forall s, (0 <= width s)%Z.
Variable b1 : bld.
Variable ops : list (nat * range * nat).
Hypothesis Pm : ports_made h ports b1 ops.

Notation Ppasses := (ppasses vz rb width conns).
(** Only edges from clocks to registers have an edge kind. *)
Definition kind_ok (role : nat -> piece) (a b t : nat) (k : edgekind) : Prop :=
  (k = EKNone /\ forall x sy lo hi, role b = Register x sy lo hi -> role a = Block x) \/ exists x sy lo hi j, role b = Register x sy lo hi /\ In (t, k) (pr_sens x) /\ pw (role a) t j /\ (Z.of_nat j < width t)%Z.
Definition pdep_ok (role : nat -> piece) (d : dep) : Prop :=
  match d with
  | DPlain a b => (exists z, role a = Plain XConst /\ role b = Plain z /\ item_constant vz rb conns z) \/ (exists x, role a = Block x /\ role b = Block x)
  | DDep a b y r k => exists t, y = Some (nm t) /\ (forall i, bit r i -> exists j, i = Z.of_nat j /\ Ppasses (role a) (role b) t j) /\ kind_ok role a b t k
  end.
Lemma pdep_feeds role d : pdep_ok role d -> PFeeds (role (dsrc d)) (role (dtgt d)).
Proof.
  destruct d as [a b|a b y r k]; cbn [pdep_ok dsrc dtgt].
  - intros [(z & H)|(x & H)]; [right; left; eauto|right; right; left; eauto].
  - intros (t & _ & H & _). destruct (H (lower r)) as (j & _ & [(Wj & Rj)|[(x & E1 & E2 & _)|(x & lo & hi & E1 & E2 & _)]]); [apply bit_lu; pose proof (lower_upper r); lia|left; eauto|right; right; left; eauto|right; right; right; eauto 6].
Qed.
Lemma pdep_same role role' d : role' (dsrc d) = role (dsrc d) -> role' (dtgt d) = role (dtgt d) -> pdep_ok role d -> pdep_ok role' d.
Proof. destruct d as [a b|a b y r k]; unfold kind_ok; cbn [pdep_ok dsrc dtgt]; unfold kind_ok; intros -> ->; auto. Qed.

Record psound (b : bld) (role : nat -> piece) (W : trace) (D : list (nat * nat)) : Prop := {
  p_vtp : forall q, In q ports -> bvt b (fp_id q) = bvt b1 (fp_id q);
  p_vts : forall sy m x, (forall q, In q ports -> sy <> fp_id q) -> bvt b sy = Some m -> In x m ->
            ival x < bnext b /\ exists y lo hi, role (ival x) = Register y sy lo hi /\ ilo x = Z.of_nat lo /\ ihi x = Z.of_nat hi;
  p_port : forall n p lo hi, In p ports -> PN b1 n (fp_id p) lo hi -> n < bnext b /\ role n = Plain (XPort p lo hi);
  p_valid : forall n, n < bnext b -> valid (role n);
  p_bn : forall n p lo hi, In p ports -> (n < bnext b /\ role n = Plain (XPort p lo hi) <-> In (n, BPort (fp_id p) (zrange lo hi)) (bnodes b));
  p_dep : forall d, In d (bdeps b) -> dsrc d < bnext b /\ dtgt d < bnext b /\ pdep_ok role d;
  p_pend : forall p, In p (bpend b) -> forall n, pnode p = Some n -> (forall q, In q ports -> psym p <> fp_id q) /\ pref p = nm (psym p) /\
             ((pkind p = EKNone /\ forall x sy lo hi, role n <> Register x sy lo hi) \/ exists x sy lo hi, role n = Register x sy lo hi /\ In (psym p, pkind p) (pr_sens x)) /\ n < bnext b /\
             forall i, bit (pbounds p) i -> exists j, i = Z.of_nat j /\ pr (role n) (psym p) j;
  p_al : aligned_writes W;
  p_in : within W D;
  p_dm : forall sy d, bdm b sy = Some d -> okd W sy d;
  p_drv : forall sy i n, drives_global (bdm b) sy i n -> exists j, i = Z.of_nat j /\ n < bnext b /\ pw (role n) sy j }.

(** Registers are the state nodes. *)
Definition kind_fits (r : piece) (k : bnode) : Prop :=
  match r, k with
  | Register _ sy lo hi, BState sy' b => sy = sy' /\ b = zrange lo hi
  | Register _ _ _ _, _ | _, BState _ _ => False
  | _, _ => True
  end.
Definition kinds (b : bld) (role : nat -> piece) : Prop :=
  (forall n k, In (n, k) (bnodes b) -> n < bnext b /\ kind_fits (role n) k) /\
  forall n x sy lo hi, n < bnext b -> role n = Register x sy lo hi -> In (n, BState sy (zrange lo hi)) (bnodes b).
Lemma kinds_grow b role r k vt dm ds ps : kinds b role -> bnext b <= k -> (forall x sy lo hi, r <> Register x sy lo hi) ->
  kinds (Bld k (bnodes b) vt dm ds ps) (fun n => if n <? bnext b then role n else r).
Proof.
  intros [K1 K2] L Nr. split; cbn [bnext bnodes].
  - intros n j I. destruct (K1 n j I) as [Ln F]. rewrite (proj2 (Nat.ltb_lt _ _) Ln). split; [lia|exact F].
  - intros n x sy lo hi Ln. destruct (n <? bnext b) eqn:E; [apply Nat.ltb_lt in E; now apply K2|]. intros Q. destruct (Nr _ _ _ _ Q).
Qed.
Lemma kinds_reg b role x sy lo hi : kinds b role -> kinds (fst (createState b sy (zrange lo hi))) (fun n => if n <? bnext b then role n else Register x sy lo hi).
Proof.
  intros [K1 K2]. split; cbn [createState register fst bnext bnodes].
  - intros n j I. apply in_app_or in I. destruct I as [I|[[= <- <-]|[]]].
    + destruct (K1 n j I) as [Ln F]. rewrite (proj2 (Nat.ltb_lt _ _) Ln). split; [lia|exact F].
    + rewrite Nat.ltb_irrefl. split; [lia|split; reflexivity].
  - intros n y t a c Ln. destruct (n <? bnext b) eqn:E; intros Q; apply in_or_app; [left; apply Nat.ltb_lt in E; eapply K2; eauto|].
    right. left. injection Q as <- <- <- <-. apply Nat.ltb_ge in E. f_equal. lia.
Qed.

(** * From the design without blocks *)
Lemma kinds_start s role W D : sound vz rb nm ports conns asgs b1 s role W D -> kinds (fb s) (fun n => Plain (role n)).
Proof.
  intros [A1 A2 A3 A4 A5 A6 A7 A8 A9 A10 A11 A12]. split; [|discriminate]. intros n k I. destruct (A4 n k I) as [L H]. split; [exact L|]. destruct k; try contradiction; exact Logic.I.
Qed.
Lemma start_s s role W D : sound vz rb nm ports conns asgs b1 s role W D -> psound (fb s) (fun n => Plain (role n)) W D.
Proof.
  intros So. pose proof So as [A1 A2 A3 A4 A5 A6 A7 A8 A9 A10 A11 A12]. split; auto.
  - intros q _. now rewrite A1.
  - intros sy m x N E. rewrite A1, (no_entry h ports b1 ops Pm sy N) in E. discriminate.
  - intros n p lo hi Ip N. destruct (A2 n p lo hi Ip N) as [L ->]. auto.
  - intros n p lo hi Ip. split.
    + intros [L E]. injection E as E. now apply (stands_kind vz rb h nm ports conns asgs Wf b1 s role W D n So L).
    + intros I. destruct (A4 n _ I) as [L _]. split; [exact L|]. f_equal. now apply (stands_kind vz rb h nm ports conns asgs Wf b1 s role W D n So L).
  - intros d I. destruct (A7 d I) as (L1 & L2 & Q). do 2 (split; [assumption|]). destruct d as [a b|a b y r k]; cbn [dep_ok pdep_ok] in *.
    + destruct Q as [Q1 Q2]. left. exists (role b). now rewrite Q1.
    + destruct Q as (Ek & t & E & Q). exists t. split; [exact E|]. split; [|left; split; [reflexivity||assumption|intros ? ? ? ? Q0; congruence]]. intros i B. destruct (Q i B) as (j & Ej & Wj & Rj). exists j. split; [exact Ej|]. left. auto.
  - intros p I n En. destruct (A8 p I) as (N & Rf & Kd & n' & En' & L & R). rewrite En in En'. injection En' as <-. split; [exact N|]. split; [exact Rf|]. split; [left; split; [exact Kd|discriminate]|]. auto.
Qed.
Lemma more_s b role W D T X : psound b role W D -> aligned_writes T -> within T X -> (forall x, In x D -> ~ In x X) -> psound b role (W ++ T) (D ++ X).
Proof.
  intros [A1 A2 A3 A4 A5 A6 A7 A8 A9 A10 A11] Al Wi Ds. split; auto.
  - eapply aligned_app; eauto.
  - now apply within_app.
  - intros sy d E. now apply okd_app, A10.
Qed.

(** * Edges to the port of the symbol *)
Lemma hook_p b role W D sy lo hi dl : psound b role W D -> lo <= hi ->
  (forall p, In p ports -> fp_sy p = sy -> ~ in_range (fp_drivers p) true lo) ->
  (forall n, In n dl -> n < bnext b /\ forall j, lo <= j <= hi -> pw (role n) sy j) ->
  forall d, In d (hookupOutputPort nm (port_refs ports) (bvt b) sy (zrange lo hi) dl) ->
  dsrc d < bnext b /\ dtgt d < bnext b /\ pdep_ok role d.
Proof.
  intros So L Ni Dl d I. destruct (port_refs ports sy) as [|pid [|pid' r]] eqn:Pr; try (unfold hookupOutputPort in I; rewrite Pr in I; destruct I).
  assert (Q : In pid (port_refs ports sy)) by (rewrite Pr; now left). unfold port_refs in Q. apply in_map_iff in Q. destruct Q as (p & Ep & Ip).
  apply filter_In in Ip. destruct Ip as [Ip Es]. apply Nat.eqb_eq in Es.
  assert (Ev : bvt b pid = bvt b1 pid) by (rewrite <- Ep; now apply (p_vtp _ _ _ _ So)).
  assert (I' : In d (hookupOutputPort nm (port_refs ports) (bvt b1) sy (zrange lo hi) dl)).
  { unfold hookupOutputPort in *. rewrite Pr in *. unfold vt_lookup, first_containing in *. rewrite Ev in I. exact I. }
  clear I. rename I' into I. rewrite (pm_vt _ _ _ _ Pm) in I.
  apply (hookup_exact variables nm (port_refs ports) no_width no_modports ops sy pid (zrange lo hi) dl Pr (pm_apart _ _ _ _ Pm)) in I; [|cbn; lia].
  destruct I as (n & pn & b' & -> & In_ & Io & Sub). apply (pm_ops _ _ _ _ Pm) in Io.
  destruct (pm_nodes _ _ _ _ Pm _ _ Io) as (q & a & c & x & y & z & Iq & Ek & Id & L1 & L2 & _). injection Ek as Ek ->.
  assert (q = p) by (eapply same_id; eauto; congruence). subst q.
  assert (Lo : a <= lo /\ hi <= c). { pose proof (Sub (Z.of_nat lo)) as S1. pose proof (Sub (Z.of_nat hi)) as S2. rewrite !zbit in S1, S2 by lia. lia. }
  cbn [dsrc dtgt]. destruct (Dl n In_) as [Ln Wn]. destruct (p_port _ _ _ _ So pn p a c Ip) as [Lp Rp]; [rewrite Ek in Io; exact Io|].
  split; [exact Ln|]. split; [exact Lp|]. cbn [pdep_ok]. exists sy. split; [reflexivity|]. split; [|left; split; [reflexivity||assumption|intros ? ? ? ? Q0; congruence]]. intros i B. rewrite zbit in B by exact L. exists (Z.to_nat i). split; [lia|].
  left. split; [apply Wn; lia|]. rewrite Rp. cbn. left. split; [now symmetry|]. split; [lia|].
  exists x, y. split; [|lia]. destruct z; [|exact Id]. exfalso. apply (Ni p Ip Es). exists x, y. split; [exact Id|lia].
Qed.
(** * Edges to the registers of the symbol *)
Lemma lookup_p b role W D x sy lo hi n : psound b role W D -> In x procs -> lo <= hi -> (forall j, lo <= j <= hi -> may (pr_body x) sy j) ->
  vt_lookup (bvt b) sy (zrange lo hi) = Some n -> n < bnext b /\ role n = Register x sy lo hi.
Proof.
  intros So Ix L My E. unfold vt_lookup in E. destruct (bvt b sy) as [m|] eqn:Em; [|discriminate].
  destruct (find _ _) as [y|] eqn:Ef in E; [|discriminate]. injection E as <-. apply find_some in Ef. destruct Ef as [I Eq]. apply in_ivfind in I. destruct I as [I _].
  destruct (p_vts _ _ _ _ So sy m y) as (Ln & z & a & c & Rl & Ea & Ec); auto.
  { intros q Iq. exact (bk_names _ _ _ _ _ (ba_shape _ _ _ _ _ _ _ Ap x Ix) sy lo q (My lo ltac:(lia)) Iq). }
  unfold range_eqb in Eq. cbn [rleft rright zrange] in Eq. apply andb_true_iff in Eq. destruct Eq as [E1 E2]. apply Z.eqb_eq in E1, E2.
  assert (a = lo) by lia. assert (c = hi) by lia. subst a c.
  pose proof (p_valid _ _ _ _ So _ Ln) as Vn. rewrite Rl in Vn. destruct Vn as (Iz & _ & Lz & Mz).
  split; [exact Ln|]. rewrite Rl. f_equal. apply (ba_one _ _ _ _ _ _ _ Ap z x sy lo Iz Ix); [apply Mz; lia|apply My; lia].
Qed.

(** * Small steps *)
Definition good (b : bld) (role : nat -> piece) (d : dep) : Prop := dsrc d < bnext b /\ dtgt d < bnext b /\ pdep_ok role d.
Lemma emit_p b role W D ds : psound b role W D -> (forall d, In d ds -> good b role d) -> psound (bemit b ds) role W D.
Proof.
  intros [A1 A2 A3 A4 A5 A6 A7 A8 A9 A10 A11] H. split; auto. cbn. intros d I. apply in_app_or in I. destruct I as [I|I]; [now apply A6|now apply H].
Qed.
Lemma queue_p b role W D ps : psound b role W D ->
  (forall p, In p ps -> forall n, pnode p = Some n -> (forall q, In q ports -> psym p <> fp_id q) /\ pref p = nm (psym p) /\ ((pkind p = EKNone /\ forall x sy lo hi, role n <> Register x sy lo hi) \/ exists x sy lo hi, role n = Register x sy lo hi /\ In (psym p, pkind p) (pr_sens x)) /\ n < bnext b /\ forall i, bit (pbounds p) i -> exists j, i = Z.of_nat j /\ pr (role n) (psym p) j) ->
  psound (bqueue b ps) role W D.
Proof.
  intros [A1 A2 A3 A4 A5 A6 A7 A8 A9 A10 A11] H. split; auto. cbn. intros p I. apply in_app_or in I. destruct I as [I|I]; [now apply A7|now apply H].
Qed.
(** New nodes, all with the role [r]. *)
Lemma grow_p b role W D k r : psound b role W D -> bnext b <= k -> valid r -> (forall p lo hi, r <> Plain (XPort p lo hi)) ->
  psound (Bld k (bnodes b) (bvt b) (bdm b) (bdeps b) (bpend b)) (fun n => if n <? bnext b then role n else r) W D.
Proof.
  intros [A1 A2 A3 A4 A5 A6 A7 A8 A9 A10 A11] L Vr Nr. set (role' := fun n => if n <? bnext b then role n else r).
  assert (Old : forall n, n < bnext b -> role' n = role n). { intros n Ln. unfold role'. now rewrite (proj2 (Nat.ltb_lt _ _) Ln). }
  split; cbn [bvt bnext bnodes bdm bdeps bpend]; auto.
  - intros sy m x N E I. destruct (A2 sy m x N E I) as (Ln & H). split; [lia|]. rewrite (Old _ Ln). exact H.
  - intros n p lo hi Ip N. destruct (A3 n p lo hi Ip N) as [Ln E]. split; [lia|]. now rewrite (Old _ Ln).
  - intros n Ln. unfold role'. destruct (n <? bnext b) eqn:E; [apply A4; now apply Nat.ltb_lt|exact Vr].
  - intros n p lo hi Ip. rewrite <- (A5 n p lo hi Ip). unfold role'. destruct (n <? bnext b) eqn:E.
    + apply Nat.ltb_lt in E. split; intros [H1 H2]; (split; [lia|exact H2]).
    + apply Nat.ltb_ge in E. split; intros [H1 H2]; [destruct (Nr _ _ _ H2)|lia].
  - intros d I. destruct (A6 d I) as (L1 & L2 & Q). split; [lia|]. split; [lia|]. eapply pdep_same; [| |exact Q]; auto.
  - intros p I n En. destruct (A7 p I n En) as (N & Rf & Kd & Ln & Q). rewrite (Old _ Ln). split; [exact N|]. split; [exact Rf|]. split; [exact Kd|]. split; [lia|exact Q].
  - intros sy i n Dr. destruct (A11 sy i n Dr) as (j & Ej & Ln & Q). exists j. rewrite (Old _ Ln). split; [exact Ej|]. split; [lia|exact Q].
Qed.
Lemma reg_p b role W D x sy lo hi : psound b role W D -> In x procs -> pr_sens x <> [] -> lo <= hi -> (forall j, lo <= j <= hi -> may (pr_body x) sy j) ->
  psound (fst (createState b sy (zrange lo hi))) (fun n => if n <? bnext b then role n else Register x sy lo hi) W D.
Proof.
  intros So Ix Sx L My. assert (G : psound (Bld (S (bnext b)) (bnodes b) (bvt b) (bdm b) (bdeps b) (bpend b)) (fun n => if n <? bnext b then role n else Register x sy lo hi) W D).
  { apply grow_p; auto; [|discriminate]. cbn. auto. }
  set (role' := fun n => _) in *. destruct G as [A1 A2 A3 A4 A5 A6 A7 A8 A9 A10 A11]. cbn [bvt bnext bnodes bdm bdeps bpend] in *.
  assert (Np : forall q, In q ports -> sy <> fp_id q).
  { intros q Iq. exact (bk_names _ _ _ _ _ (ba_shape _ _ _ _ _ _ _ Ap x Ix) sy lo q (My lo ltac:(lia)) Iq). }
  split; cbn [createState register fst bvt bnext bnodes bdm bdeps bpend]; auto.
  - intros q Iq. unfold vt_insert, upd. destruct (Nat.eqb_spec (fp_id q) sy) as [E|_]; [destruct (Np q Iq (eq_sym E))|auto].
  - intros t m y N E I. unfold vt_insert, upd in E. destruct (Nat.eqb_spec t sy) as [->|_]; [|apply (A2 t m y N E I)]. injection E as <-. apply in_ins in I.
    destruct I as [->|I].
    + cbn [ival ilo ihi]. split; [lia|]. exists x, lo, hi. unfold role'. rewrite Nat.ltb_irrefl. split; [reflexivity|]. destruct (zlu lo hi L) as [Z1 Z2]. cbn [toPair fst snd]. fold (lower (zrange lo hi)) (upper (zrange lo hi)). auto.
    + destruct (bvt b sy) as [m0|] eqn:Em; [|destruct I]. exact (A2 sy m0 y N Em I).
  - intros n p lo' hi' Ip. rewrite (A5 n p lo' hi' Ip). rewrite in_app_iff. split; [auto|]. intros [I|[[=]|[]]]. exact I.
Qed.

(** * Intervals of a block *)
Definition fine (x : fproc V) (b : bld) (role : nat -> piece) (W : trace) (sy : nat) (d : dmap) : Prop :=
  okd W sy d /\ (forall y i, In y (ivs d) -> (ilo y <= i <= ihi y)%Z -> exists j, i = Z.of_nat j /\ may (pr_body x) sy j) /\
  (forall i n, has d i n -> n < bnext b /\ role n = Block x).
Lemma not_input x sy j p : In x procs -> may (pr_body x) sy j -> In p ports -> fp_sy p = sy -> ~ in_range (fp_drivers p) true j.
Proof.
  intros Ix M Ip <- R. apply (ba_driven _ _ _ _ _ _ _ Ap x _ j Ix M). unfold all_driven. apply in_or_app. left. apply in_flat_map. exists p. split; [exact Ip|].
  now apply (proj2 (input_bits_in (fun _ => []) p j)).
Qed.
Lemma interface_p b role W D x sy lo hi dl : psound b role W D -> In x procs -> lo <= hi -> (forall j, lo <= j <= hi -> may (pr_body x) sy j) ->
  (forall n, In n dl -> n < bnext b /\ role n = Block x) -> forall d, In d (interfaceEdges variables nm no_modports (bvt b) sy (zrange lo hi) dl) -> good b role d.
Proof.
  intros So Ix L My Dl d I. unfold interfaceEdges in I. apply in_flat_map in I. destruct I as (n & In_ & I). cbn [variables] in I.
  destruct (vt_lookup (bvt b) sy (zrange lo hi)) as [m|] eqn:El; [|destruct I]. destruct I as [<-|[]].
  destruct (lookup_p b role W D x sy lo hi m So Ix L My El) as [Lm Rm]. destruct (Dl n In_) as [Ln Rn]. split; [exact Ln|]. split; [exact Lm|]. cbn [pdep_ok].
  exists sy. split; [reflexivity|]. split; [|left; split; [reflexivity||assumption|intros ? ? ? ? Q0; congruence]]. intros i B. rewrite zbit in B by exact L. exists (Z.to_nat i). split; [lia|]. right. right. exists x, lo, hi. split; [exact Rn|]. split; [exact Rm|lia].
Qed.

Notation mergeI := (mergeInterval variables nm (port_refs ports) width no_modports).
Notation mergeIs := (mergeIntervals variables nm (port_refs ports) width no_modports).
Notation mergeD := (mergeDrivers variables nm (port_refs ports) width no_modports).
(** The clocks of every register are to be resolved, and its bits are known to hold it. *)
Definition armed (b : bld) (role : nat -> piece) : Prop :=
  forall n x sy lo hi, n < bnext b -> role n = Register x sy lo hi -> incl (clocks nm width (pr_sens x) n) (bpend b) /\ exists m y, bvt b sy = Some m /\ In y m /\ ilo y = Z.of_nat lo /\ ihi y = Z.of_nat hi.
(** Nothing is lost, and new nodes belong to blocks. *)
Definition grown (b b' : bld) (role' : nat -> piece) : Prop :=
  (forall t i n, drives_global (bdm b) t i n -> drives_global (bdm b') t i n) /\ (forall n z, n < bnext b' -> role' n = Plain z -> n < bnext b).
Definition keeps (b b' : bld) (role role' : nat -> piece) : Prop :=
  ((bnext b <= bnext b' /\ forall n, n < bnext b -> role' n = role n) /\ (kinds b role -> kinds b' role')) /\ grown b b' role' /\ (armed b role -> armed b' role').
Lemma keeps_refl b role : keeps b b role role.
Proof. split; [split; [split; [lia|auto]|auto]|]. split; [split; auto|auto]. Qed.

Lemma add_sk W sy b dl b0 : aligned_writes W -> (forall d, bdm b0 sy = Some d -> okd W sy d) -> inW W sy (lower b) (upper b) -> dl <> [] ->
  exists d, baddDrivers b0 sy b dl true = DOk (Bld (bnext b0) (bnodes b0) (bvt b0) (upd (bdm b0) sy (Some d)) (bdeps b0) (bpend b0)) /\ okd W sy d /\
    (forall i n, has d i n -> (bit b i /\ In n dl) \/ drives_global (bdm b0) sy i n) /\ forall i n, drives_global (bdm b0) sy i n -> has d i n.
Proof.
  intros Al Ok Iw Ne. destruct (add_s W sy b dl b0 Al Ok Iw Ne) as (d & E & Kd & H). exists d. split; [exact E|]. split; [exact Kd|]. split; [exact H|].
  unfold baddDrivers in E. set (d0 := match bdm b0 sy with Some d => d | None => dm_empty end) in *.
  assert (K : okd W sy d0) by (unfold d0; destruct (bdm b0 sy) eqn:Ed; [auto|apply okd_empty]).
  destruct (add_okd W sy d0 b dl true Al K Iw Ne) as (d2 & E2 & _ & H2). rewrite E2 in E. cbn [dbind] in E. injection E as E. apply (f_equal (fun f => f sy)) in E. unfold upd in E. rewrite Nat.eqb_refl in E. injection E as ->.
  intros i n (d1 & Q & Dr). apply H2. unfold d0. rewrite Q. destruct (Z_le_dec (lower b) i) as [A1|A1]; [destruct (Z_le_dec i (upper b)) as [A2|A2]|].
  - left. split; [apply bit_lu; lia|]. right. auto.
  - right. split; [rewrite bit_lu; lia|exact Dr].
  - right. split; [rewrite bit_lu; lia|exact Dr].
Qed.
Lemma interval_p b role W D x sy d y b' : psound b role W D -> In x procs -> fine x b role W sy d -> In y (ivs d) -> mergeI (pr_sens x) b sy d y = DOk b' ->
  exists role', psound b' role' W D /\ keeps b b' role role'.
Proof.
  intros So Ix (Kd & Mb & Hs) Iy E. pose proof Kd as [Dk Un Iw Ne].
  destruct (get (lists d) (ival y)) as [l|] eqn:El; [|destruct (proj1 Un y Iy El)].
  assert (Ly : (ilo y <= ihi y)%Z) by (destruct Dk as [Dw _]; apply wf_spec in Dw; now apply Dw).
  assert (Nl : l <> []) by (intros ->; exact (Ne y Iy El)).
  assert (Hl : forall n, In n l -> n < bnext b /\ role n = Block x).
  { intros n I. apply (Hs (ilo y)). exists y, l. split; [exact Iy|]. split; [exact (conj (Z.le_refl _) Ly)|auto]. }
  destruct (Mb y (ilo y) Iy) as (jl & Ejl & _); [lia|]. destruct (Mb y (ihi y) Iy) as (jh & Ejh & _); [lia|]. assert (Lj : jl <= jh) by lia.
  assert (My : forall j, jl <= j <= jh -> may (pr_body x) sy j).
  { intros j L. destruct (Mb y (Z.of_nat j) Iy) as (j' & Ej & M); [lia|]. assert (j' = j) by lia. now subst j'. }
  assert (Rz : Range (ilo y) (ihi y) = zrange jl jh) by (unfold zrange; now rewrite Ejl, Ejh). destruct (zlu jl jh Lj) as [Z1 Z2].
  unfold mergeInterval, getDriverList in E. rewrite El in E. cbn [dbind] in E. rewrite Rz in E.
  destruct (pr_sens x) as [|s0 sens] eqn:Es.
  - destruct (add_sk W sy (zrange jl jh) l b (p_al _ _ _ _ So) (p_dm _ _ _ _ So sy)) as (d' & E' & Kd' & Hd & Hk); [rewrite Z1, Z2, <- Ejl, <- Ejh; now apply Iw|exact Nl|].
    rewrite E' in E. cbn [dbind] in E. injection E as <-. exists role. split.
    2: { split; [split; [split; [cbn; lia|reflexivity]|intros Kk; exact Kk]|]. split; [split|].
      - intros t i n (d0 & Q & Dr). cbn [bdm bemit]. unfold upd. destruct (Nat.eqb_spec t sy) as [->|Nt]; [|exists d0; cbn [bdm]; unfold upd; rewrite (proj2 (Nat.eqb_neq _ _) Nt); auto].
        exists d'. cbn [bdm]. unfold upd. rewrite Nat.eqb_refl. split; [reflexivity|]. apply (Hk i n). exists d0. auto.
      - intros n z Ln R. exact Ln.
      - intros Ar n z t lo hi Ln R. exact (Ar n z t lo hi Ln R). }
    set (b2 := Bld _ _ _ _ _ _) in *. change (bvt (bemit b2 _)) with (bvt b2).
    assert (So2 : psound b2 role W D).
    { destruct So as [A1 A2 A3 A4 A5 A6 A7 A8 A9 A10 A11]. split; auto; cbn [b2 bdm bnext].
      - intros t d0. unfold upd. destruct (Nat.eqb_spec t sy) as [->|_]; [intros [= <-]; exact Kd'|apply A10].
      - intros t i n (d0 & Q & Dr). unfold upd in Q. destruct (Nat.eqb_spec t sy) as [->|_]; [|apply A11; exists d0; auto].
        injection Q as <-. destruct (Hd i n Dr) as [[B I]|G]; [|now apply A11]. rewrite zbit in B by exact Lj. exists (Z.to_nat i). split; [lia|].
        destruct (Hl n I) as [Ln Rn]. split; [exact Ln|]. rewrite Rn. cbn. split; [exact Es|]. apply My. lia. }
    apply emit_p; [apply emit_p; [exact So2|]|].
    + intros e I. refine (hook_p b2 role W D sy jl jh l So2 Lj _ _ e I).
      * intros p Ip Ep. apply (not_input x sy jl p Ix); [apply My; lia|exact Ip|exact Ep].
      * intros n In_. destruct (Hl n In_) as [Ln Rn]. split; [exact Ln|]. intros j L. rewrite Rn. cbn. split; [exact Es|]. now apply My.
    + intros e I. exact (interface_p b2 role W D x sy jl jh l So2 Ix Lj My Hl e I).
  - assert (Sx : pr_sens x <> []) by (rewrite Es; discriminate).
    pose proof (reg_p b role W D x sy jl jh So Ix Sx Lj My) as So1. set (role' := fun n => _) in So1.
    assert (Old : forall n, n < bnext b -> role' n = role n). { intros n Ln. unfold role'. now rewrite (proj2 (Nat.ltb_lt _ _) Ln). }
    assert (Nw : role' (bnext b) = Register x sy jl jh) by (unfold role'; now rewrite Nat.ltb_irrefl).
    destruct (createState b sy (zrange jl jh)) as [b2 n2] eqn:Ec. cbn [fst] in So1. assert (n2 = bnext b /\ bnext b2 = S (bnext b)) as [-> N2] by (unfold createState, register in Ec; injection Ec as <- <-; auto).
    assert (Hl' : forall n, In n l -> n < bnext b2 /\ role' n = Block x). { intros n I. destruct (Hl n I) as [Ln Rn]. split; [lia|]. now rewrite Old. }
    injection E as <-. exists role'. split.
    2: { split; [split; [split; [cbn; lia|exact Old]|intros Kk; pose proof (kinds_reg b role x sy jl jh Kk) as Kr; rewrite Ec in Kr; exact Kr]|].
      assert (Eb : bdm b2 = bdm b /\ bpend b2 = bpend b) by (unfold createState, register in Ec; injection Ec as <-; auto). destruct Eb as [Eb Ep]. split; [split|].
      - intros t i n Dr. cbn [bdm bemit bqueue]. now rewrite Eb.
      - intros n z Ln R. cbn [bnext bemit bqueue] in Ln. rewrite N2 in Ln. destruct (Nat.eq_dec n (bnext b)) as [->|]; [congruence|lia].
      - assert (Ev : bvt b2 = vt_insert (bvt b) sy (zrange jl jh) (bnext b)) by (unfold createState, register in Ec; injection Ec as <-; auto).
        intros Ar n z t lo hi Ln R. cbn [bnext bpend bvt bemit bqueue] in *. rewrite N2 in Ln. rewrite Ep, Ev. unfold vt_insert, upd. destruct (Nat.eq_dec n (bnext b)) as [->|Nn].
        + rewrite Nw in R. injection R as <- <- <- <-. rewrite Nat.eqb_refl. split; [intros p I; apply in_or_app; right; rewrite Es in I; exact I|]. do 2 eexists. split; [reflexivity|]. split; [apply in_ins; now left|].
          cbn [ilo ihi toPair fst snd]. fold (lower (zrange jl jh)) (upper (zrange jl jh)). auto.
        + assert (Ln' : n < bnext b) by lia. rewrite (Old n Ln') in R. destruct (Ar n z t lo hi Ln' R) as (A1 & m & y' & A2 & A3 & A4 & A5). split; [intros p I; apply in_or_app; left; now apply A1|].
          destruct (Nat.eqb_spec t sy) as [->|_]; [|eauto 6]. rewrite A2. do 2 eexists. split; [reflexivity|]. split; [apply in_ins; right; exact A3|auto]. }
    cbn [bvt bemit bqueue]. fold (bemit b2 (map (fun k => DDep k (bnext b) (Some (nm sy)) (zrange jl jh) EKNone) l)).
    set (b3 := bemit b2 (map (fun k => DDep k (bnext b) (Some (nm sy)) (zrange jl jh) EKNone) l)).
    assert (So3 : psound b3 role' W D).
    { apply emit_p; [exact So1|]. intros e I. apply in_map_iff in I. destruct I as (k & <- & I). destruct (Hl' k I) as [Lk Rk]. split; [exact Lk|]. split; [cbn; lia|]. cbn [pdep_ok].
      exists sy. split; [reflexivity|]. split; [|left; split; [reflexivity||assumption|intros ? ? ? ? Q0; congruence]]. intros i B. rewrite zbit in B by exact Lj. exists (Z.to_nat i). split; [lia|]. right. right. exists x, jl, jh. split; [exact Rk|]. split; [exact Nw|lia]. }
    change (psound (bemit (bemit (bqueue b3 (clocks nm width (s0 :: sens) (bnext b))) (hookupOutputPort nm (port_refs ports) (bvt b3) sy (zrange jl jh) [bnext b]))
      (interfaceEdges variables nm no_modports (bvt b3) sy (zrange jl jh) l)) role' W D).
    apply emit_p; [apply emit_p; [apply queue_p; [exact So3|]|]|].
    + intros p I n En. unfold clocks in I. apply in_flat_map in I. destruct I as (e & Ie & I). destruct (width (fst e) =? 0)%Z eqn:Ew; [destruct I|]. destruct I as [<-|[]].
      cbn [psym pnode pbounds] in *. injection En as <-.
      assert (Im : In (fst e) (map fst (pr_sens x))) by (rewrite Es; now apply in_map). split.
      * intros q Iq. exact (bk_clocks _ _ _ _ _ (ba_shape _ _ _ _ _ _ _ Ap x Ix) (fst e) q Im Iq).
      * split; [reflexivity|]. split; [right; exists x, sy, jl, jh; split; [exact Nw|]; rewrite Es; now destruct e|]. split; [cbn; lia|]. intros i B. rewrite Nw. apply Z.eqb_neq in Ew. pose proof (Wd (fst e)). rewrite bit_lu, lower_range, upper_range in B by lia. exists (Z.to_nat i). split; [lia|]. cbn. split; [exact Im|lia].
    + intros e I. refine (hook_p b3 role' W D sy jl jh [bnext b] So3 Lj _ _ e I).
      * intros p Ip Ep. apply (not_input x sy jl p Ix); [apply My; lia|exact Ip|exact Ep].
      * intros n [<-|[]]. split; [cbn; lia|]. intros j L. rewrite Nw. cbn. auto.
    + intros e I. exact (interface_p b3 role' W D x sy jl jh l So3 Ix Lj My Hl' e I).
Qed.
Lemma interval_ok b role W D x sy d y : psound b role W D -> fine x b role W sy d -> In y (ivs d) -> exists b', mergeI (pr_sens x) b sy d y = DOk b'.
Proof.
  intros So (Kd & Mb & Hs) Iy. pose proof Kd as [Dk Un Iw Ne].
  destruct (get (lists d) (ival y)) as [l|] eqn:El; [|destruct (proj1 Un y Iy El)].
  assert (Ly : (ilo y <= ihi y)%Z) by (destruct Dk as [Dw _]; apply wf_spec in Dw; now apply Dw).
  assert (Nl : l <> []) by (intros ->; exact (Ne y Iy El)).
  destruct (Mb y (ilo y) Iy) as (jl & Ejl & _); [lia|]. destruct (Mb y (ihi y) Iy) as (jh & Ejh & _); [lia|]. assert (Lj : jl <= jh) by lia.
  assert (Rz : Range (ilo y) (ihi y) = zrange jl jh) by (unfold zrange; now rewrite Ejl, Ejh). destruct (zlu jl jh Lj) as [Z1 Z2].
  unfold mergeInterval, getDriverList. rewrite El. cbn [dbind]. rewrite Rz. destruct (pr_sens x) as [|s0 sens]; [|destruct (createState _ _ _); cbn [dbind]; eauto].
  destruct (add_sk W sy (zrange jl jh) l b (p_al _ _ _ _ So) (p_dm _ _ _ _ So sy)) as (d' & E' & _); [rewrite Z1, Z2, <- Ejl, <- Ejh; now apply Iw|exact Nl|].
  rewrite E'. cbn [dbind]. eauto.
Qed.
Lemma fine_keep x b b' role role' W sy d : keeps b b' role role' -> fine x b role W sy d -> fine x b' role' W sy d.
Proof. intros [[[L K] _] _] (A & B & C). split; [exact A|]. split; [exact B|]. intros i n H. destruct (C i n H) as [Ln Rn]. split; [lia|]. now rewrite K. Qed.
Lemma keeps_tr b b' b2 role role' role2 : keeps b b' role role' -> keeps b' b2 role' role2 -> keeps b b2 role role2.
Proof.
  intros [[[L K] Q] [[G1 G2] A]] [[[L' K'] Q'] [[G1' G2'] A']]. split; [split; [split; [lia|]|auto]|split; [split|auto]].
  - intros n Ln. rewrite K' by lia. now apply K.
  - intros t i n Dr. auto.
  - intros n z Ln R. pose proof (G2' n z Ln R) as Ln'. apply (G2 n z Ln'). now rewrite <- (K' n Ln').
Qed.
Lemma intervals_p x sy d W D : In x procs -> forall its b role b', psound b role W D -> fine x b role W sy d -> incl its (ivs d) -> mergeIs (pr_sens x) b sy d its = DOk b' ->
  exists role', psound b' role' W D /\ keeps b b' role role'.
Proof.
  intros Ix. induction its as [|y its IH]; intros b role b' So Bf Il E; cbn [mergeIntervals] in E.
  - injection E as <-. exists role. split; [exact So|]. apply keeps_refl.
  - destruct (mergeI (pr_sens x) b sy d y) as [b2|] eqn:E2; [|discriminate]. cbn [dbind] in E.
    destruct (interval_p b role W D x sy d y b2 So Ix Bf (Il y (or_introl eq_refl)) E2) as (role2 & So2 & K2).
    destruct (IH b2 role2 b' So2 (fine_keep _ _ _ _ _ _ _ _ K2 Bf)) as (role' & So' & K'); [intros z I; apply Il; now right|exact E|].
    exists role'. split; [exact So'|]. eapply keeps_tr; eauto.
Qed.
Lemma intervals_ok x sy d W D : In x procs -> forall its b role, psound b role W D -> fine x b role W sy d -> incl its (ivs d) -> exists b', mergeIs (pr_sens x) b sy d its = DOk b'.
Proof.
  intros Ix. induction its as [|y its IH]; intros b role So Bf Il; cbn [mergeIntervals]; [eauto|].
  destruct (interval_ok b role W D x sy d y So Bf (Il y (or_introl eq_refl))) as (b2 & E2). rewrite E2. cbn [dbind].
  destruct (interval_p b role W D x sy d y b2 So Ix Bf (Il y (or_introl eq_refl)) E2) as (role2 & So2 & K2).
  apply (IH b2 role2 So2 (fine_keep _ _ _ _ _ _ _ _ K2 Bf)). intros z I. apply Il. now right.
Qed.
Lemma merge_p x W D : In x procs -> forall blk b role b', psound b role W D -> (forall sy d, In (sy, d) blk -> fine x b role W sy d) -> mergeD (pr_sens x) b blk = DOk b' ->
  exists role', psound b' role' W D /\ keeps b b' role role'.
Proof.
  intros Ix. induction blk as [|[sy d] blk IH]; intros b role b' So Bf E; cbn [mergeDrivers] in E.
  - injection E as <-. exists role. split; [exact So|]. apply keeps_refl.
  - destruct (mergeIs (pr_sens x) b sy d (ivs d)) as [b2|] eqn:E2; [|discriminate]. cbn [dbind] in E.
    destruct (intervals_p x sy d W D Ix (ivs d) b role b2 So (Bf sy d (or_introl eq_refl)) (incl_refl _) E2) as (role2 & So2 & K2).
    destruct (IH b2 role2 b' So2) as (role' & So' & K'); [intros sy' d' I; eapply fine_keep; [exact K2|]; apply Bf; now right|exact E|].
    exists role'. split; [exact So'|]. eapply keeps_tr; eauto.
Qed.

Lemma merge_ok x W D : In x procs -> forall blk b role, psound b role W D -> (forall sy d, In (sy, d) blk -> fine x b role W sy d) -> exists b', mergeD (pr_sens x) b blk = DOk b'.
Proof.
  intros Ix. induction blk as [|[sy d] blk IH]; intros b role So Bf; cbn [mergeDrivers]; [eauto|].
  destruct (intervals_ok x sy d W D Ix (ivs d) b role So (Bf sy d (or_introl eq_refl)) (incl_refl _)) as (b2 & E2). rewrite E2. cbn [dbind].
  destruct (intervals_p x sy d W D Ix (ivs d) b role b2 So (Bf sy d (or_introl eq_refl)) (incl_refl _) E2) as (role2 & So2 & K2).
  apply (IH b2 role2 So2). intros sy' d' I. eapply fine_keep; [exact K2|]. apply Bf. now right.
Qed.

(** * Blocks *)
Lemma block_some : forall p, bstmt_ok vz rb h ports p -> exists q, proc_stmt vz rb h p = Some q.
Proof.
  induction p as [|bl l r|p IHp q IHq|c t IHt|c t IHt e IHe|c its IHi|p IHp|xs p IHp r IHr] using pst_mind with
    (P0 := fun r => bitems_ok vz rb h ports r -> exists q, proc_items vz rb h r = Some q); intros Ok.
  1-5: cbn [proc_stmt].
  6: rewrite proc_case.
  7: rewrite proc_default.
  8: rewrite proc_item.
  - eauto.
  - destruct Ok as (O1 & O2 & _ & O3). destruct (asg_segs vz rb h ports nm (w_hints _ _ _ _ _ _ Wf) bl l r (conj O1 (conj O2 O3))) as (q & gs & Wa & E & _). eauto.
  - destruct Ok as [O1 O2]. destruct (IHp O1) as (a & ->). destruct (IHq O2) as (b & ->). eauto.
  - destruct Ok as [_ O2]. destruct (IHt O2) as (a & ->). cbn. eauto.
  - destruct Ok as (_ & O2 & O3). destruct (IHt O2) as (a & ->). destruct (IHe O3) as (b & ->). eauto.
  - destruct Ok as [_ O2]. destruct (IHi O2) as (a & ->). cbn. eauto.
  - destruct (IHp Ok) as (a & ->). cbn. eauto.
  - destruct Ok as (_ & O2 & O3). destruct (IHp O2) as (a & ->). destruct (IHr O3) as (b & ->). eauto.
Qed.
Lemma proc_p s role W D x : psound (fb s) role W D -> In x procs -> (forall t i, may (pr_body x) t i -> ~ In (t, i) D) ->
  exists s', run_proc vz rb h nm ports width s x = DOk s' /\ exists role' W' X, psound (fb s') role' W' (D ++ X) /\ keeps (fb s) (fb s') role role' /\ (forall t i, In (t, i) X <-> may (pr_body x) t i).
Proof.
  intros So Ix Nd. unfold run_proc. pose proof (ba_shape _ _ _ _ _ _ _ Ap x Ix) as Bs.
  destruct (block_some (pr_body x) (bk_ok _ _ _ _ _ Bs)) as (p & Ep). rewrite Ep. destruct (block_text vz rb h ports (w_hints _ _ _ _ _ _ Wf) (pr_body x) p (bk_ok _ _ _ _ _ Bs) Ep) as [Tw Tr].
  pose proof (bk_aligned _ _ _ _ _ Bs p Ep) as Al. fold (all_refs p) in Al. set (T := all_refs p) in *. destruct (may_list (pr_body x)) as (X & HX).
  cbv zeta. destruct (block_ok nm (bnext (fb s)) (read_refs p) T Al p (incl_refl _) (incl_refl _)) as (q & Eq). rewrite Eq. cbn [dbind].
  destruct (block_keep nm (bnext (fb s)) (read_refs p) T Al p q (incl_refl _) (incl_refl _) Eq) as [[F1 F2 F3 F4] [G1 G2 _ _]].
  assert (Wi : within T X).
  { intros t lo hi i (l & w & I & -> & ->) L. destruct (Tw l t w i I) as (j & Ej & M); [now apply bit_lu|]. exists j. split; [exact Ej|]. now apply HX. }
  assert (So1 : psound (fb s) role (W ++ T) (D ++ X)).
  { apply more_s; auto. intros [t i] I J. apply (Nd t i); [now apply HX|exact I]. }
  assert (So2 := grow_p (fb s) role (W ++ T) (D ++ X) (fnext (fxs q)) (Block x) So1 F1 Ix ltac:(discriminate)). set (role' := fun n => _) in So2. set (b2 := Bld _ _ _ _ _ _) in So2.
  assert (Rb : forall n, bnext (fb s) <= n -> role' n = Block x). { intros n L. unfold role'. now rewrite (proj2 (Nat.ltb_ge _ _) L). }
  assert (So3 : psound (bqueue (bemit b2 (fdeps (fxs q))) (fpend (fxs q))) role' (W ++ T) (D ++ X)).
  { apply queue_p; [apply emit_p; [exact So2|]|].
    - intros d I. destruct (F2 d I) as [[[L1 L2] [L3 L4]] Tx]. split; [exact L2|]. split; [exact L4|]. destruct d as [a b|a b y r k]; cbn [dsrc dtgt pdep_ok dtext] in *; rewrite !Rb by assumption; [right; exists x; auto|].
      destruct Tx as (t & -> & Ek & Tx). exists t. split; [reflexivity|]. split; [|left; split; [reflexivity||assumption|intros ? ? ? ? Q0; rewrite (Rb b L3) in Q0; discriminate Q0]]. intros i B. destruct (Tx i B) as (w & Iw & B'). destruct (Tr _ _ _ Iw B') as (j & Ej & Rj). exists j. split; [exact Ej|]. right. left. exists x. auto.
    - intros y I n En. destruct (F3 y I) as (Rf & Ek & On & Bt). rewrite En in On. destruct On as [L1 L2].
      assert (Rd : forall i, bit (pbounds y) i -> exists j, i = Z.of_nat j /\ breads (pr_body x) (psym y) j).
      { intros i B. destruct (Bt i B) as (b & Ib & B'). exact (Tr _ _ _ Ib B'). }
      split; [|split; [exact Rf|split; [left; split; [exact Ek|intros; rewrite (Rb n L1); discriminate]|split; [exact L2|]]]].
      + intros pt Ipt. destruct (Rd (lower (pbounds y))) as (j & _ & R); [apply bit_lu; pose proof (lower_upper (pbounds y)); lia|].
        exact (reads_names vz rb h ports (pr_body x) (bk_ok _ _ _ _ _ Bs) _ _ pt R Ipt).
      + intros i B. rewrite Rb by exact L1. exact (Rd i B). }
  assert (Fn : forall sy d, In (sy, d) (combine (seq 0 (length (adefs (cur q)))) (adefs (cur q))) -> fine x (bqueue (bemit b2 (fdeps (fxs q))) (fpend (fxs q))) role' (W ++ T) sy d).
  { intros sy d I. assert (Ed : defs (cur q) sy = d).
    { apply In_nth_error in I. destruct I as (k & K). assert (Q : forall (l : list dmap) o k sy d, nth_error (combine (seq o (length l)) l) k = Some (sy, d) -> sy = o + k /\ nth_error l k = Some d).
      { clear. induction l as [|a l IH]; intros o k sy d H; [destruct k; discriminate|]. destruct k; cbn in H; [injection H as <- <-; split; [lia|reflexivity]|].
        apply IH in H. destruct H as [-> H]. split; [lia|exact H]. }
      apply Q in K. destruct K as [-> K]. cbn. unfold defs. now apply nth_error_nth. }
    rewrite <- Ed. split; [apply okd_right, G1|]. split.
    + intros y i Iy L. destruct (ok_in _ _ _ (G1 sy) y Iy) as (l & w & Iw & E1 & E2). apply (Tw l sy w i Iw). apply bit_lu. lia.
    + intros i n H. destruct (G2 sy i n H) as [L1 L2]. split; [exact L2|now apply Rb]. }
  destruct (merge_ok x (W ++ T) (D ++ X) Ix _ _ role' So3 Fn) as (b4 & Em). unfold b2, bqueue, bemit in Em. cbn [bnext bnodes bvt bdm bdeps bpend] in Em. rewrite Em. cbn [dbind]. eexists. split; [reflexivity|]. cbn [fb].
  destruct (merge_p x (W ++ T) (D ++ X) Ix _ _ role' b4 So3 Fn Em) as (role2 & So4 & Kk).
  exists role2, (W ++ T), X. split; [exact So4|]. split; [|exact HX]. eapply keeps_tr; [|exact Kk]. split; [split; [split; [exact F1|]|]|split; [split|]].
  - intros n Ln. unfold role'. now rewrite (proj2 (Nat.ltb_lt _ _) Ln).
  - intros K. exact (kinds_grow (fb s) role (Block x) (fnext (fxs q)) _ _ _ _ K F1 ltac:(discriminate)).
  - intros t i n Dr. exact Dr.
  - intros n z _ R. destruct (Nat.lt_ge_cases n (bnext (fb s))) as [L|L]; [exact L|]. rewrite (Rb n L) in R. discriminate R.
  - intros Ar n z t lo hi _ R. destruct (Nat.lt_ge_cases n (bnext (fb s))) as [L|L]; [|rewrite (Rb n L) in R; discriminate R].
    cbn [bpend bvt bqueue bemit b2]. unfold role' in R. rewrite (proj2 (Nat.ltb_lt _ _) L) in R. destruct (Ar n z t lo hi L R) as [A1 A2]. split; [|exact A2]. intros p0 I. apply in_or_app. left. now apply A1.
Qed.
Lemma procs_p : forall l s role W D, psound (fb s) role W D -> incl l procs -> NoDup l -> (forall x t i, In x l -> may (pr_body x) t i -> ~ In (t, i) D) ->
  exists s', run_procs vz rb h nm ports width s l = DOk s' /\ exists role' W' D', psound (fb s') role' W' D' /\ keeps (fb s) (fb s') role role'.
Proof.
  induction l as [|x l IH]; intros s role W D So Il Nd Ds; cbn [run_procs]; [exists s; split; [reflexivity|]; exists role, W, D; split; [exact So|apply keeps_refl]|].
  destruct (proc_p s role W D x So (Il x (or_introl eq_refl)) (fun t i => Ds x t i (or_introl eq_refl))) as (s1 & E1 & role1 & W1 & X & So1 & Kk1 & HX). inversion Nd as [|? ? Nx Nd']; subst.
  rewrite E1. cbn [dbind]. destruct (IH s1 role1 W1 (D ++ X) So1) as (s' & E' & role' & W' & D' & So' & Kk'); auto; [intros y I; apply Il; now right| |].
  - intros y t i Iy M I. apply in_app_or in I. destruct I as [I|I]; [exact (Ds y t i (or_intror Iy) M I)|]. apply HX in I. apply Nx.
    rewrite (ba_one _ _ _ _ _ _ _ Ap x y t i); auto; apply Il; [now left|now right].
  - exists s'. split; [exact E'|]. exists role', W', D'. split; [exact So'|]. eapply keeps_tr; eauto.
Qed.

(** * Emission *)
Lemma emits_p b role W D : psound b role W D -> exists ds, emit_all (bvt b) (bdm b) (bpend b) = DOk ds.
Proof.
  intros So. assert (H : forall p, In p (bpend b) -> exists l, emitEdgesFor (bvt b) (bdm b) p = DOk l).
  { intros p Ip. unfold emitEdgesFor. destruct (pnode p) as [n|]; [|eauto]. destruct (vt_lookup _ _ _); [eauto|].
    destruct (bdm b (psym p)) as [dm|] eqn:Dm; [|eauto]. destruct (p_dm _ _ _ _ So _ _ Dm) as [K1 K2 K3 K4]. unfold forEachDriverInterval, dm_find.
    destruct (each_interval_spec dm (proj1 K2) (ivfind (fst (toPair (pbounds p))) (snd (toPair (pbounds p))) (ivs dm))) as (out & Eo & Sp).
    { intros y J. now apply in_ivfind in J. }
    rewrite Eo. cbn [dbind]. eauto. }
  revert H. generalize (bpend b) as q. induction q as [|p q IH]; intros H; cbn [emit_all]; [eauto|].
  destruct (H p (or_introl eq_refl)) as (l & ->). destruct IH as (m & ->); [intros x I; apply H; now right|]. cbn [dbind]. eauto.
Qed.
Lemma emitted_p b role W D ds d : psound b role W D -> emit_all (bvt b) (bdm b) (bpend b) = DOk ds -> In d ds -> good b role d.
Proof.
  intros So Em I. destruct (emit_all_in _ _ _ _ _ Em I) as (p & l & Ip & E & Id). unfold emitEdgesFor in E.
  destruct (pnode p) as [n|] eqn:Pn; [|injection E as <-; destruct Id]. destruct (p_pend _ _ _ _ So p Ip n Pn) as (Np & Rf & Kd & Ln & Rd).
  assert (LU := lower_upper (pbounds p)).
  destruct (vt_lookup (bvt b) (psym p) (pbounds p)) as [m|] eqn:El.
  - injection E as <-. destruct Id as [<-|[]]. unfold vt_lookup in El. destruct (bvt b (psym p)) as [mm|] eqn:Bv; [|discriminate].
    destruct (find _ _) as [y|] eqn:Ef in El; [|discriminate]. injection El as <-. apply find_some in Ef. destruct Ef as [I0 Eq]. apply in_ivfind in I0. destruct I0 as [Iy _].
    destruct (p_vts _ _ _ _ So _ mm y Np Bv Iy) as (Ly & z & lo & hi & Rl & Ea & Ec). pose proof (p_valid _ _ _ _ So _ Ly) as Vy. rewrite Rl in Vy. destruct Vy as (_ & _ & Lz & _).
    unfold range_eqb in Eq. cbn [rleft rright] in Eq. apply andb_true_iff in Eq. destruct Eq as [E1 E2]. apply Z.eqb_eq in E1, E2.
    split; [exact Ly|]. split; [exact Ln|]. cbn [pdep_ok]. exists (psym p). split; [now rewrite Rf|].
    assert (Bb : forall i, bit (pbounds p) i -> exists j, i = Z.of_nat j /\ pw (role (ival y)) (psym p) j /\ pr (role n) (psym p) j).
    { intros i B. destruct (Rd i B) as (j & Ej & Rj). exists j. split; [exact Ej|]. split; [|exact Rj]. rewrite Rl. cbn. split; [reflexivity|]. unfold bit in B. rewrite <- E1, <- E2 in B. lia. }
    split; [intros i B; destruct (Bb i B) as (j & Ej & Wj & Rj); exists j; split; [exact Ej|]; left; auto|]. 
    destruct (Bb (lower (pbounds p))) as (j & _ & Wj & Rj); [apply bit_lu; lia|]. destruct Kd as [[-> Nr]|(x & sy & a & c & Rn & Is)]; [left; split; [reflexivity|]; intros; exfalso; eapply Nr; eauto|]. right.
    rewrite Rn in Rj. exists x, sy, a, c, j. split; [exact Rn|]. split; [exact Is|]. split; [exact Wj|apply Rj].
  - destruct (bdm b (psym p)) as [dm|] eqn:Dm; [|injection E as <-; destruct Id].
    destruct (p_dm _ _ _ _ So _ _ Dm) as [K1 K2 K3 K4]. unfold forEachDriverInterval, dm_find in E.
    destruct (each_interval_spec dm (proj1 K2) (ivfind (fst (toPair (pbounds p))) (snd (toPair (pbounds p))) (ivs dm))) as (out & Eo & Sp).
    { intros y J. now apply in_ivfind in J. }
    rewrite Eo in E. cbn [dbind] in E. injection E as <-. apply in_flat_map in Id. destruct Id as ([r dl] & Io & Id). cbn [fst snd] in Id.
    apply Sp in Io. destruct Io as (x & Ix & -> & El'). apply in_ivfind in Ix. destruct Ix as [Ix _].
    pose proof (inter_bits (Range (ilo x) (ihi x)) (pbounds p)) as Ib. destruct (intersection (Range (ilo x) (ihi x)) (pbounds p)) as [eb|]; [|destruct Id].
    apply in_map_iff in Id. destruct Id as (m & <- & Im). unfold good. cbn [dsrc dtgt].
    assert (Lx : (ilo x <= ihi x)%Z) by (destruct K1 as [Dw _]; apply wf_spec in Dw; now apply Dw).
    cbn [pdep_ok].
    assert (Bb : forall i, bit eb i -> exists j, i = Z.of_nat j /\ m < bnext b /\ pw (role m) (psym p) j /\ pr (role n) (psym p) j).
    { intros i B. assert (B0 : bit_in eb i) by (apply bit_lu; exact B). apply Ib in B0. destruct B0 as [Bx Bp]. unfold bit_in, lower, upper in Bx. cbn [rleft rright] in Bx.
      destruct (p_drv _ _ _ _ So (psym p) i m) as (j & Ej & Lm & Wj).
      { exists dm. split; [exact Dm|]. apply drives_live. exists x, dl. split; [exact Ix|]. split; [|auto]. unfold S_Interval.inside. lia. }
      destruct (Rd i) as (j' & Ej' & Rj); [apply bit_lu; exact Bp|]. assert (j' = j) by lia. subst j'. eauto 6. }
    destruct (Bb (lower eb)) as (_ & _ & Lm & _); [apply bit_lu; pose proof (lower_upper eb); lia|].
    split; [exact Lm|]. split; [exact Ln|]. exists (psym p). split; [now rewrite Rf|]. split; [intros i B; destruct (Bb i B) as (j & Ej & _ & Wj & Rj); exists j; split; [exact Ej|]; left; auto|].
    destruct (Bb (lower eb)) as (j & _ & _ & Wj & Rj); [apply bit_lu; pose proof (lower_upper eb); lia|]. destruct Kd as [[-> Nr]|(z & sy & lo & hi & Rn & Is)]; [left; split; [reflexivity|]; intros; exfalso; eapply Nr; eauto|]. right.
    rewrite Rn in Rj. exists z, sy, lo, hi, j. split; [exact Rn|]. split; [exact Is|]. split; [exact Wj|apply Rj].
Qed.
End F.

Section G.
Context {V : Type}.
Variable vz : V.
Variable rb : bool.
Variable h : hints.
Variable nm : nat -> str.
Variable width : nat -> Z.
Variable ports : list fport.
Variable conns : list (fconn V).
Variable asgs : list (fasg V).
Variable procs : list (fproc V).
Hypothesis Wf : wf_design vz rb h ports conns asgs.
Hypothesis One : one_driver ports conns asgs.
Hypothesis Npn : no_port_names ports asgs.
Hypothesis Ap : blocks_apart vz rb h ports conns asgs procs.
Hypothesis Wd : forall s, (0 <= width s)%Z.
Notation pflow := (pflow vz rb h nm ports width conns asgs procs).

Lemma pbuilt : exists b1 s role W D ds, pflow_state vz rb h nm ports width conns asgs procs = DOk s /\ psound vz rb nm width ports conns asgs procs b1 (fb s) role W D /\
  (kinds (fb s) role /\ armed nm width (fb s) role /\ forall n z t j, n < bnext (fb s) -> role n = Plain z -> item_writes rb conns z t j -> drives_global (bdm (fb s)) t (Z.of_nat j) n) /\
  emit_all (bvt (fb s)) (bdm (fb s)) (bpend (fb s)) = DOk ds /\
  forall d, In d (bdeps (fb s) ++ ds) -> good vz rb nm width conns (fb s) role d.
Proof.
  destruct (built_sound_d vz rb h nm ports conns asgs Wf One Npn) as (b1 & ops & s0 & role0 & W0 & D0 & Es & Pm & So0 & Dn & _ & Id0).
  destruct (procs_p vz rb h nm width ports conns asgs procs Wf Ap Wd b1 ops Pm procs s0 _ W0 D0 (start_s vz rb h nm width ports conns asgs procs Wf b1 ops Pm s0 role0 W0 D0 So0) (incl_refl _) (ba_nodup _ _ _ _ _ _ _ Ap)) as (s1 & Ep & role & W & D & So & [[[Ln Sr] Kk] [[Gd Gp] Ar]]).
  { intros x t i Ix M I. apply (ba_driven _ _ _ _ _ _ _ Ap x t i Ix M). now apply Id0. }
  destruct (emits_p vz rb nm width ports conns asgs procs b1 (fb s1) role W D So) as (ds & Em).
  exists b1, s1, role, W, D, ds. unfold pflow_state. rewrite Es. cbn [dbind]. do 2 (split; [assumption|]). split; [|split; [exact Em|]].
  - split; [apply Kk; exact (kinds_start vz rb nm ports conns asgs b1 s0 role0 W0 D0 So0)|]. split; [apply Ar; intros n x sy lo hi _ [=]|].
    intros n z t j L R Wz. pose proof (Gp n z L R) as L0. rewrite (Sr n L0) in R. injection R as R. apply Gd. apply (dn_w _ _ _ _ _ _ _ _ (Dn n L0)). now rewrite R.
  - intros d Id. apply in_app_or in Id. destruct Id as [Id|Id].
    + exact (p_dep _ _ _ _ _ _ _ _ _ _ _ _ _ So d Id).
    + exact (emitted_p vz rb nm width ports conns asgs procs Wd b1 (fb s1) role W D ds d So Em Id).
Qed.
(** How the netlist came about. *)
Definition made (s : fl) (nl : netlist) (role : nat -> piece V) : Prop := exists b1 W D ds,
  psound vz rb nm width ports conns asgs procs b1 (fb s) role W D /\ armed nm width (fb s) role /\
  (forall n z t j, n < bnext (fb s) -> role n = Plain z -> item_writes rb conns z t j -> drives_global (bdm (fb s)) t (Z.of_nat j) n) /\
  emit_all (bvt (fb s)) (bdm (fb s)) (bpend (fb s)) = DOk ds /\ (forall d, In d (bdeps (fb s) ++ ds) -> good vz rb nm width conns (fb s) role d) /\
  drun (empty_netlist s) (bdeps (fb s) ++ ds) = Some nl /\ forall n, hasNode (ng nl) n = true <-> n < bnext (fb s).
Lemma pieces_made s nl : pflow = Some (s, nl) -> exists role, (pieces vz rb width ports conns asgs procs (bnodes (fb s)) nl role /\ pannotates vz rb width conns nm nl role) /\ made s nl role.
Proof.
  intros Fl. destruct pbuilt as (b1 & s1 & role & W & D & ds & Es & So & (Kk & Ar & Pd) & Em & Dk).
  unfold M_Proc.pflow in Fl. rewrite Es, Em in Fl.
  destruct (drun (empty_netlist s1) (bdeps (fb s1) ++ ds)) as [nl'|] eqn:Dr; [|discriminate]. cbn [option_map] in Fl. injection Fl as <- <-.
  assert (Rg0 : reachable outEdgeIndexThreshold (ng (empty_netlist s1))) by apply mk_graph_reachable.
  assert (Pe : forall a b, pair_ann (empty_netlist s1) a b = []) by (intros a b; unfold pair_ann; cbn [ng empty_netlist]; now rewrite no_edges).
  destruct (drun_conn _ _ _ Rg0 Pe Dr) as (Rg & Ni & Hn & Cn).
  assert (Nd : forall n, hasNode (ng nl') n = true <-> n < bnext (fb s1)) by (intros n; rewrite Hn; exact (hasNode_empty nm s1 n)).
  exists role. split; [split; [split|]|].
  - intros n H. apply Nd in H. exact (p_valid _ _ _ _ _ _ _ _ _ _ _ _ _ So n H).
  - intros n p lo hi Ip. rewrite Nd. exact (p_bn _ _ _ _ _ _ _ _ _ _ _ _ _ So n p lo hi Ip).
  - intros n H. apply Nd in H. destruct Kk as [K1 K2]. rewrite Ni. cbn [ninf empty_netlist]. unfold node_info. split.
    + destruct (find _ (bnodes (fb s1))) as [[m k]|] eqn:F1.
      * apply find_some in F1. destruct F1 as [I E1]. cbn in E1. apply Nat.eqb_eq in E1. subst m. destruct (K1 n k I) as [_ F]. destruct k; try discriminate. intros _.
        destruct (role n) as [| |x sy' lo hi]; try contradiction. eauto.
      * destruct (find _ (fns s1)) as [[m k]|]; [destruct k|]; discriminate.
    + intros (x & sy & lo & hi & R). pose proof (K2 n x sy lo hi H R) as I. destruct (find _ (bnodes (fb s1))) as [[m k]|] eqn:F1.
      * apply find_some in F1. destruct F1 as [J E1]. cbn in E1. apply Nat.eqb_eq in E1. subst m. destruct (K1 n k J) as [_ F]. rewrite R in F. destruct k; try contradiction. reflexivity.
      * apply (find_none _ _ F1) in I. cbn in I. rewrite Nat.eqb_refl in I. discriminate.
  - intros a b (e & Ie & Et & _). assert (He : has_edge nl' a b).
    { unfold has_edge, pair_ann. intros Q. apply map_eq_nil in Q. assert (J : In e (filter (to b) (outs (nst (ng nl') a)))) by (apply filter_In; split; [exact Ie|unfold to; now apply Nat.eqb_eq]).
      rewrite Q in J. destruct J. }
    apply (drun_edges _ _ _ a b Rg0 Dr) in He. destruct He as [He|(d & Id & <- & <-)]; [destruct (He (Pe a b))|]. rewrite !Nd.
    destruct (Dk d Id) as (L1 & L2 & Q). split; [exact L1|]. split; [exact L2|]. eapply pdep_feeds; eauto.
  - intros a b x i (y & Iy & Ey & By). destruct (drun_ann _ _ _ _ Rg0 eq_refl Dr) as (_ & _ & _ & _ & A). specialize (A a b). rewrite Pe in A.
    assert (F : P_AnnotX.fine (fun o i => match o with None => True | Some x => exists t j, x = nm t /\ i = Z.of_nat j /\ ppasses vz rb width conns (role a) (role b) t j end) (pair_ann nl' a b)).
    { refine (arun_inv _ _ _ _ _ _ A _ _); [exact I| |intros z []]. intros a' b' sy r k J i' B. unfold onp in J. apply filter_In in J. destruct J as [J Q].
      apply deq_true in Q. cbn [dsrc dtgt] in Q. destruct Q as [-> ->]. destruct (Dk _ J) as (_ & _ & t & -> & H & _). destruct (H i') as (j & Ej & K); [now apply bit_lu|].
      exists t, j. auto. }
    specialize (F y Iy i By). rewrite Ey in F. destruct F as (t & j & Et & Ej & K). exists t, j. auto.
  - exists b1, W, D, ds. repeat (split; [assumption|]). exact Nd.
Qed.
Lemma pieces_sound s nl : pflow = Some (s, nl) -> exists role, pieces vz rb width ports conns asgs procs (bnodes (fb s)) nl role /\ pannotates vz rb width conns nm nl role.
Proof. intros Fl. destruct (pieces_made s nl Fl) as (role & P & _). eauto. Qed.
Lemma pflow_total : small_indices ports conns asgs -> small_blocks procs -> exists s nl, pflow = Some (s, nl).
Proof.
  intros Sm Sb. destruct pbuilt as (b1 & s1 & role & W & D & ds & Es & So & Kk & Em & Dk). unfold M_Proc.pflow. rewrite Es, Em.
  assert (Rg0 : reachable outEdgeIndexThreshold (ng (empty_netlist s1))) by apply mk_graph_reachable.
  destruct (drun_total (bdeps (fb s1) ++ ds) (empty_netlist s1) Rg0) as (nl & E).
  - intros d I. destruct (Dk d I) as (L1 & L2 & _). split; now apply (hasNode_empty nm).
  - intros a b x I. unfold pair_ann in I. cbn [ng empty_netlist] in I. rewrite no_edges in I. destruct I.
  - intros a b sy r k I. destruct (Dk _ I) as (L1 & L2 & t & _ & H & _). cbn [dsrc dtgt] in L1, L2.
    pose proof (p_valid _ _ _ _ _ _ _ _ _ _ _ _ _ So a L1) as Va. pose proof (p_valid _ _ _ _ _ _ _ _ _ _ _ _ _ So b L2) as Vb.
    assert (Q : forall i, bit r i -> (0 <= i < int32_max)%Z).
    { intros i B. destruct (H i B) as (j & -> & Ps). split; [lia|]. destruct Ps as [[Wj _]|[(x & E1 & _ & Rj)|(x & lo & hi & _ & E2 & L)]].
      - destruct (role a) as [z|z|z t' lo hi]; cbn [valid_piece piece_writes] in *.
        + apply (Sm t). exact (writes_driven vz rb ports conns asgs z t j Va Wj).
        + apply (Sb z t j Va). left. apply Wj.
        + destruct Va as (Iz & _ & _ & M). destruct Wj as [-> L]. apply (Sb z t' j Iz). left. now apply M.
      - rewrite E1 in Va. apply (Sb x t j Va). now right.
      - rewrite E2 in Vb. destruct Vb as (Ix & _ & _ & M). apply (Sb x t j Ix). left. now apply M. }
    pose proof (lower_upper r). destruct (Q (lower r)) as [Q1 _]; [apply bit_lu; lia|]. destruct (Q (upper r)) as [_ Q2]; [apply bit_lu; lia|]. split; assumption.
  - rewrite E. cbn [option_map]. eauto.
Qed.
Lemma pcone s nl n cone : pflow = Some (s, nl) -> getCombFanIn nl n = Some cone ->
  forall p lo hi q a c m, In p ports -> In q ports -> In (n, BPort (fp_id p) (zrange lo hi)) (bnodes (fb s)) -> In m cone ->
    In (m, BPort (fp_id q) (zrange a c)) (bnodes (fb s)) -> PConnected vz rb width ports conns asgs procs (Plain (XPort q a c)) (Plain (XPort p lo hi)).
Proof.
  intros Fl Fi p lo hi q a c m Ip Iq Ip' Im Iq'. destruct (pieces_sound s nl Fl) as (role & [V1 V2 V3 V4] & _).
  destruct (fanIn_of nl n cone (pflow_wf _ _ _ _ _ _ _ _ _ _ _ Fl) Fi) as [_ Rc]. apply Rc in Im.
  apply (V2 n p lo hi Ip) in Ip'. apply (V2 m q a c Iq) in Iq'. destruct Ip' as [_ <-]. destruct Iq' as [_ <-].
  induction Im as [|x y Im IH H]; [constructor|]. destruct H as [C Ns]. destruct (V4 _ _ C) as (H1 & H2 & Fd). econstructor; [exact Fd| | |exact IH].
  - apply V1; exact H2.
  - intros b s0 lo0 hi0 R. apply Ns. apply (V3 y H1). eauto.
Qed.
End G.
