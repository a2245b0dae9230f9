(** Proofs about whole designs: every edge joins two pieces of which one feeds the other. *)
From Coq Require Import Sorted.
From Verif Require Import Base M_Graph M_Range M_Netlist M_Annot M_Interval M_Heap M_Drivers M_Pending M_DFA M_Builder M_Slice M_Port M_Flow
  S_Reach S_Netlist S_Annot S_Interval S_Drivers S_Pending S_DFA S_Builder S_Slice S_Port S_Flow S_Prec
  P_Interval P_Heap P_Drivers P_DriversX P_Annot P_Pending P_DFA P_DFA2 P_Builder P_Slice P_Slice2 P_Port P_Port2 P_Port3 P_Flow2 P_Flow3 P_Flow4 P_Flow5 P_Flow6 P_Flow7
  P_Prec P_Prec2.

(** * Writes *)
(** The ranges in [W] hold bits of [D] only. *)
Definition within (W : trace) (D : list (nat * nat)) : Prop :=
  forall t lo hi i, inW W t lo hi -> (lo <= i <= hi)%Z -> exists j, i = Z.of_nat j /\ In (t, j) D.
Lemma inW_app W T t lo hi : inW (W ++ T) t lo hi <-> inW W t lo hi \/ inW T t lo hi.
Proof.
  split.
  - intros (l & b & I & E). apply in_app_or in I. destruct I as [I|I]; [left|right]; exists l, b; auto.
  - intros [(l & b & I & E)|(l & b & I & E)]; exists l, b; (split; [apply in_or_app; auto|exact E]).
Qed.
Lemma okd_app W T sy d : okd W sy d -> okd (W ++ T) sy d.
Proof. intros [A B C D]. split; auto. intros x I. apply inW_app. left. auto. Qed.
Lemma aligned_app W T D X : aligned_writes W -> aligned_writes T -> within W D -> within T X -> (forall x, In x D -> ~ In x X) -> aligned_writes (W ++ T).
Proof.
  intros A B Hw Ht Ds l sy b l' b' I I'. apply in_app_or in I. apply in_app_or in I'.
  assert (Cross : forall l b l' b', In (l, sy, b) W -> In (l', sy, b') T -> (upper b < lower b' \/ upper b' < lower b)%Z).
  { intros k r k' r' J J'. pose proof (lower_upper r). pose proof (lower_upper r').
    destruct (Z.lt_ge_cases (upper r) (lower r')) as [Q|Q]; [auto|]. destruct (Z.lt_ge_cases (upper r') (lower r)) as [Q'|Q']; [auto|]. exfalso.
    set (i := Z.max (lower r) (lower r')).
    destruct (Hw sy (lower r) (upper r) i) as (j & E & Ij); [exists k, r; auto|lia|].
    destruct (Ht sy (lower r') (upper r') i) as (j' & E' & Ij'); [exists k', r'; auto|lia|].
    assert (j = j') by lia. subst j'. exact (Ds _ Ij Ij'). }
  destruct I as [I|I], I' as [I'|I'].
  - eapply A; eauto.
  - right. eapply Cross; eauto.
  - right. destruct (Cross _ _ _ _ I' I); auto.
  - eapply B; eauto.
Qed.
Lemma within_app W T D X : within W D -> within T X -> within (W ++ T) (D ++ X).
Proof.
  intros Hw Ht t lo hi i I L. apply inW_app in I. destruct I as [I|I]; [destruct (Hw _ _ _ _ I L) as (j & E & J)|destruct (Ht _ _ _ _ I L) as (j & E & J)];
    exists j; (split; [exact E|apply in_or_app; auto]).
Qed.

Lemma nodup_split {A} (B C : list A) : NoDup (B ++ C) -> NoDup B /\ NoDup C /\ forall x, In x B -> ~ In x C.
Proof.
  induction B as [|x B IH]; cbn; intros N; [split; [constructor|split; [exact N|intros x []]]|]. inversion N as [|? ? N1 N2]; subst.
  destruct (IH N2) as (I1 & I2 & I3). split; [constructor; [intros I; apply N1, in_or_app; now left|exact I1]|]. split; [exact I2|].
  intros y [<-|I]; [intros J; apply N1, in_or_app; now right|auto].
Qed.
Lemma path_bit {V} (vz : V) (e : expr V) : lvalue e -> typed nodyn e -> forall q t i, In q (lpaths e) -> proot q = Some t -> plo q <= i <= phi q -> In (t, i) (lbits e).
Proof.
  intros Lv T q t i I R L. destruct (lv_bits vz e Lv T) as (_ & _ & E & _). rewrite E. apply in_flat_map. exists q. split; [apply -> in_rev; exact I|].
  apply in_pbits. split; [exact R|lia].
Qed.

Section F.
Context {V : Type}.
Variable vz : V.
Variable rb : bool.
Variable h : hints.
Variable nm : nat -> str.
Variable ports : list fport.
Variable conns : list (fconn V).
Variable asgs : list (fasg V).
Hypothesis Wf : wf_design vz rb h ports conns asgs.
Hypothesis One : one_driver ports conns asgs.
Notation item := (item V).
Notation writes := (item_writes rb conns).
Notation rds := (item_reads vz rb conns).
Notation const_of := (item_constant vz rb conns).
Notation Feeds := (Feeds vz rb conns).
Notation valid := (valid_item vz rb ports asgs).
Variable b1 : bld.
Variable ops : list (nat * range * nat).
Hypothesis Pm : ports_made h ports b1 ops.

(** An edge asked for: its source writes, and its target reads, all the bits that it is annotated with. *)
Definition dep_ok (role : nat -> item) (d : dep) : Prop :=
  match d with
  | DPlain a b => role a = XConst /\ const_of (role b)
  | DDep a b x r k => k = EKNone /\ exists t, x = Some (nm t) /\ forall i, bit r i -> exists j, i = Z.of_nat j /\ writes (role a) t j /\ rds (role b) t j
  end.
Lemma dep_feeds role d : dep_ok role d -> Feeds (role (dsrc d)) (role (dtgt d)).
Proof.
  destruct d as [a b|a b x r k]; cbn [dep_ok dsrc dtgt].
  - intros [E C]. right. auto.
  - intros (_ & t & _ & H). destruct (H (lower r)) as (j & _ & Wj & Rj); [apply bit_lu; pose proof (lower_upper r); lia|]. left. eauto.
Qed.
Lemma dep_same role role' d : role' (dsrc d) = role (dsrc d) -> role' (dtgt d) = role (dtgt d) -> dep_ok role d -> dep_ok role' d.
Proof. destruct d; cbn [dsrc dtgt dep_ok]; intros -> ->; auto. Qed.

(** What holds of the state: [role] says what each node stands for. *)
Record sound (s : fl) (role : nat -> item) (W : trace) (D : list (nat * nat)) : Prop := {
  s_vt : bvt (fb s) = bvt b1;
  s_port : forall n p lo hi, In p ports -> PN b1 n (fp_id p) lo hi -> n < bnext (fb s) /\ role n = XPort p lo hi;
  s_valid : forall n, n < bnext (fb s) -> valid (role n);
  s_bn : forall n k, In (n, k) (bnodes (fb s)) -> n < bnext (fb s) /\ match k with
           | BPort p r => exists q lo hi, role n = XPort q lo hi /\ p = fp_id q /\ r = zrange lo hi
           | BConst => role n = XConst
           | _ => False
           end;
  s_fn : forall n k, In (n, k) (fns s) -> n < bnext (fb s) /\ match k with
           | M_DFA.KAssign _ => exists a lo hi, role n = XAsg a lo hi
           | M_DFA.KConst => role n = XConst
           | _ => False
           end;
  s_all : forall n, n < bnext (fb s) -> (exists k, In (n, k) (bnodes (fb s))) \/ exists k, In (n, k) (fns s);
  s_dep : forall d, In d (bdeps (fb s)) -> dsrc d < bnext (fb s) /\ dtgt d < bnext (fb s) /\ dep_ok role d;
  s_pend : forall p, In p (bpend (fb s)) -> (forall q, In q ports -> psym p <> fp_id q) /\ pref p = nm (psym p) /\ pkind p = EKNone /\ exists n, pnode p = Some n /\ n < bnext (fb s) /\
             forall i, bit (pbounds p) i -> exists j, i = Z.of_nat j /\ rds (role n) (psym p) j;
  s_al : aligned_writes W;
  s_in : within W D;
  s_dm : forall sy d, bdm (fb s) sy = Some d -> okd W sy d;
  s_drv : forall sy i n, drives_global (bdm (fb s)) sy i n -> exists j, i = Z.of_nat j /\ n < bnext (fb s) /\ writes (role n) sy j }.

Lemma sound_more s role W D T X : sound s role W D -> aligned_writes T -> within T X -> (forall x, In x D -> ~ In x X) -> sound s role (W ++ T) (D ++ X).
Proof.
  intros [A1 A2 A3 A4 A5 A6 A7 A8 A9 A10 A11 A12] Al Wi Ds. split; auto.
  - eapply aligned_app; eauto.
  - now apply within_app.
  - intros sy d E. now apply okd_app, A11.
Qed.

(** * Edges to the port of the symbol *)
Lemma hook_s s role W D sy lo hi dl : sound s role W D -> lo <= hi ->
  (forall p, In p ports -> fp_sy p = sy -> ~ in_range (fp_drivers p) true lo) ->
  (forall n, In n dl -> n < bnext (fb s) /\ forall j, lo <= j <= hi -> writes (role n) sy j) ->
  forall d, In d (hookupOutputPort nm (port_refs ports) (bvt b1) sy (zrange lo hi) dl) ->
  dsrc d < bnext (fb s) /\ dtgt d < bnext (fb s) /\ dep_ok role d.
Proof.
  intros So L Ni Dl d I. destruct (port_refs ports sy) as [|pid [|pid' r]] eqn:Pr; try (unfold hookupOutputPort in I; rewrite Pr in I; destruct I).
  assert (Q : In pid (port_refs ports sy)) by (rewrite Pr; now left). unfold port_refs in Q. apply in_map_iff in Q. destruct Q as (p & Ep & Ip).
  apply filter_In in Ip. destruct Ip as [Ip Es]. apply Nat.eqb_eq in Es.
  rewrite (pm_vt _ _ _ _ Pm) in I.
  apply (hookup_exact variables nm (port_refs ports) no_width no_modports ops sy pid (zrange lo hi) dl Pr (pm_apart _ _ _ _ Pm)) in I; [|cbn; lia].
  destruct I as (n & pn & b' & -> & In_ & Io & Sub). apply (pm_ops _ _ _ _ Pm) in Io.
  destruct (pm_nodes _ _ _ _ Pm _ _ Io) as (q & a & c & x & y & z & Iq & Ek & Id & L1 & L2 & _). injection Ek as Ek ->.
  assert (q = p) by (eapply same_id; eauto; congruence). subst q.
  assert (Lo : a <= lo /\ hi <= c). { pose proof (Sub (Z.of_nat lo)) as S1. pose proof (Sub (Z.of_nat hi)) as S2. rewrite !zbit in S1, S2 by lia. lia. }
  cbn [dsrc dtgt]. destruct (Dl n In_) as [Ln Wn]. destruct (s_port _ _ _ _ So pn p a c Ip) as [Lp Rp]; [rewrite Ek in Io; exact Io|].
  split; [exact Ln|]. split; [exact Lp|]. split; [reflexivity|]. exists sy. split; [reflexivity|]. intros i B. rewrite zbit in B by exact L.
  exists (Z.to_nat i). split; [lia|]. split; [apply Wn; lia|]. rewrite Rp. left. split; [now symmetry|]. split; [lia|].
  exists x, y. split; [|lia]. destruct z; [|exact Id]. exfalso. apply (Ni p Ip Es). exists x, y. split; [exact Id|lia].
Qed.

Lemma add_s W sy b dl b0 : aligned_writes W -> (forall d, bdm b0 sy = Some d -> okd W sy d) -> inW W sy (lower b) (upper b) -> dl <> [] ->
  exists d, baddDrivers b0 sy b dl true = DOk (Bld (bnext b0) (bnodes b0) (bvt b0) (upd (bdm b0) sy (Some d)) (bdeps b0) (bpend b0)) /\ okd W sy d /\
    forall i n, has d i n -> (bit b i /\ In n dl) \/ drives_global (bdm b0) sy i n.
Proof.
  intros Al Ok Iw Ne. unfold baddDrivers. set (d0 := match bdm b0 sy with Some d => d | None => dm_empty end).
  assert (K : okd W sy d0) by (unfold d0; destruct (bdm b0 sy) eqn:E; [auto|apply okd_empty]).
  destruct (add_okd W sy d0 b dl true Al K Iw Ne) as (d & E & Kd & H). rewrite E. cbn [dbind]. exists d. split; [reflexivity|]. split; [exact Kd|].
  assert (G : forall i n, has d0 i n -> drives_global (bdm b0) sy i n).
  { intros i n Q. unfold d0 in Q. destruct (bdm b0 sy) as [d1|] eqn:Ed; [exists d1; auto|]. destruct Q as (x & l & [] & _). }
  intros i n Q. apply (proj1 (H i n)) in Q. destruct Q as [[B [I|[_ Q]]]|[_ Q]]; auto.
Qed.

(** * Requests of connections *)
Definition act_fine (s : bld) (role : nat -> item) (W : trace) (a : @pact V) : Prop :=
  match a with
  | PDrive sy lo hi n => lo <= hi /\ inW W sy (Z.of_nat lo) (Z.of_nat hi) /\ n < bnext b1 /\
      (forall j, lo <= j <= hi -> writes (role n) sy j) /\ forall p, In p ports -> fp_sy p = sy -> ~ in_range (fp_drivers p) true lo
  | PRead sy lo hi n => lo <= hi /\ n < bnext b1 /\ (forall j, lo <= j <= hi -> rds (role n) sy j) /\ forall q, In q ports -> sy <> fp_id q
  | PConst v ns => forall n, In n ns -> n < bnext b1 /\ const_of (role n)
  end.
Definition keeps (s : fl) (role role' : nat -> item) : Prop := forall n, n < bnext (fb s) -> role' n = role n.

Lemma act_s b f role W D a : sound (FL b f) role W D -> bnext b1 <= bnext b -> act_fine b role W a ->
  exists b' role', apply_act variables nm (port_refs ports) no_modports b a = DOk b' /\ sound (FL b' f) role' W D /\
    bnext b <= bnext b' /\ (forall n, n < bnext b -> role' n = role n) /\ incl (bdeps b) (bdeps b') /\
    (forall n p lo hi, n < bnext b' -> role' n = XPort p lo hi -> n < bnext b) /\
    forall v ns n, a = PConst v ns -> In n ns -> exists m, m < bnext b' /\ role' m = XConst /\ In (DPlain m n) (bdeps b').
Proof.
  intros So Nx Fi. destruct a as [sy lo hi n|sy lo hi n|v ns]; cbn [apply_act act_fine] in *.
  - destruct Fi as (L & Iw & Ln & Wn & Ni). destruct (zlu lo hi L) as [Z1 Z2].
    destruct (add_s W sy (zrange lo hi) [n] b (s_al _ _ _ _ So) (s_dm _ _ _ _ So sy)) as (d & E & Kd & Hd); [now rewrite Z1, Z2|discriminate|].
    rewrite E. cbn [dbind]. eexists. exists role. split; [reflexivity|].
    pose proof (hook_s _ role W D sy lo hi [n] So L Ni) as Hk. destruct So as [A1 A2 A3 A4 A5 A6 A7 A8 A9 A10 A11 A12]. cbn [fb fns] in *.
    split; [|split; [cbn; lia|split; [auto|split; [cbn; apply incl_appl, incl_refl|split; [auto|discriminate]]]]].
    split; cbn [fb fns bvt bnext bnodes bdeps bpend bdm bemit]; auto.
    + intros e I. apply in_app_or in I. destruct I as [I|I]; [auto|]. apply Hk; [|now rewrite <- A1].
      intros m [<-|[]]. split; [lia|]. exact Wn.
    + intros sy' d'. unfold upd. destruct (Nat.eqb_spec sy' sy) as [->|_]; [intros [= <-]; exact Kd|apply A11].
    + intros sy' i m (d' & Q & Dr). unfold upd in Q. destruct (Nat.eqb_spec sy' sy) as [->|_]; [|apply A12; exists d'; auto].
      injection Q as <-. destruct (Hd i m Dr) as [[B [<-|[]]]|G]; [|now apply A12]. rewrite zbit in B by exact L.
      exists (Z.to_nat i). split; [lia|]. split; [lia|]. apply Wn. lia.
  - destruct Fi as (L & Ln & Rn & Np). eexists. exists role. split; [reflexivity|]. destruct So as [A1 A2 A3 A4 A5 A6 A7 A8 A9 A10 A11 A12]. cbn [fb fns] in *.
    split; [|split; [cbn; lia|split; [auto|split; [cbn; apply incl_refl|split; [auto|discriminate]]]]]. split; cbn [fb fns baddRvalue variables bqueue bvt bnext bnodes bdeps bpend bdm]; auto.
    intros p I. apply in_app_or in I. destruct I as [I|[<-|[]]]; [auto|]. cbn [psym pnode pbounds]. split; [exact Np|]. split; [reflexivity|]. split; [reflexivity|]. exists n. split; [reflexivity|]. split; [lia|].
    intros i B. rewrite zbit in B by exact L. exists (Z.to_nat i). split; [lia|]. apply Rn. lia.
  - set (role' := fun m => if Nat.eqb m (bnext b) then XConst else role m).
    assert (Old : forall m, m < bnext b -> role' m = role m) by (intros m Lm; unfold role'; destruct (Nat.eqb_spec m (bnext b)); [lia|reflexivity]).
    assert (New : role' (bnext b) = XConst) by (unfold role'; now rewrite Nat.eqb_refl).
    eexists. exists role'. split; [reflexivity|]. destruct So as [A1 A2 A3 A4 A5 A6 A7 A8 A9 A10 A11 A12]. cbn [fb fns] in *.
    split; [|split; [cbn; lia|split; [exact Old|split; [cbn; apply incl_appl, incl_refl|split]]]].
    2: { intros m p lo hi Lm E. cbn in Lm. destruct (Nat.eq_dec m (bnext b)) as [->|Ne]; [rewrite New in E; discriminate|lia]. }
    2: { intros v' ns' m [= <- <-] Im. exists (bnext b). cbn. split; [lia|]. split; [exact New|]. apply in_or_app. right. apply in_map_iff. eauto. }
    split; cbn [fb fns bvt bnext bnodes bdeps bpend bdm]; auto.
    + intros m p lo hi Ip N. destruct (A2 m p lo hi Ip N) as [Lm E]. split; [lia|]. now rewrite Old.
    + intros m Lm. destruct (Nat.eq_dec m (bnext b)) as [->|Ne]; [rewrite New; exact I|]. rewrite Old by lia. apply A3. lia.
    + intros m k I. apply in_app_or in I. destruct I as [I|[[= <- <-]|[]]]; [|split; [lia|exact New]].
      destruct (A4 m k I) as [Lm H]. split; [lia|]. destruct k; auto; now rewrite Old.
    + intros m k I. destruct (A5 m k I) as [Lm H]. split; [lia|]. destruct k; auto; now rewrite Old.
    + intros m Lm. destruct (Nat.eq_dec m (bnext b)) as [->|Ne]; [left; exists BConst; apply in_or_app; right; now left|].
      destruct (A6 m) as [(k & I)|H]; [lia| |now right]. left. exists k. apply in_or_app. now left.
    + intros d I. apply in_app_or in I. destruct I as [I|I].
      * destruct (A7 d I) as (L1 & L2 & H). split; [lia|]. split; [lia|]. eapply dep_same; [| |exact H]; now apply Old.
      * apply in_map_iff in I. destruct I as (m & <- & Im). cbn [dsrc dtgt]. destruct (Fi m Im) as [Lm Cm]. split; [lia|]. split; [lia|].
        cbn [dep_ok]. rewrite New, Old by lia. split; [reflexivity|exact Cm].
    + intros p I. destruct (A8 p I) as (H & P1 & P2 & m & Pn & Lm & Q). do 3 (split; [assumption|]). exists m. split; [exact Pn|]. split; [lia|]. now rewrite Old.
    + intros sy i m G. destruct (A12 sy i m G) as (j & E & Lm & Q). exists j. split; [exact E|]. split; [lia|]. now rewrite Old.
Qed.
Lemma acts_s f W D : forall l b role, sound (FL b f) role W D -> bnext b1 <= bnext b -> (forall a, In a l -> act_fine b role W a) ->
  exists b' role', apply_acts variables nm (port_refs ports) no_modports b l = DOk b' /\ sound (FL b' f) role' W D /\ bnext b <= bnext b' /\
    (forall n, n < bnext b -> role' n = role n) /\ incl (bdeps b) (bdeps b') /\ (forall n p lo hi, n < bnext b' -> role' n = XPort p lo hi -> n < bnext b) /\
    forall v ns n, In (PConst v ns) l -> In n ns -> exists m, m < bnext b' /\ role' m = XConst /\ In (DPlain m n) (bdeps b').
Proof.
  induction l as [|a l IH]; intros b role So Nx Fi; cbn [apply_acts].
  - exists b, role. split; [reflexivity|]. split; [exact So|]. split; [lia|]. split; [auto|]. split; [apply incl_refl|]. split; [auto|intros v ns n []].
  - destruct (act_s b f role W D a So Nx (Fi a (or_introl eq_refl))) as (b2 & role2 & E & So2 & Nx2 & Kp & Ic & Po & Cs). rewrite E. cbn [dbind].
    destruct (IH b2 role2 So2) as (b3 & role3 & E3 & So3 & Nx3 & Kp3 & Ic3 & Po3 & Cs3); [lia| |].
    + intros x I. specialize (Fi x (or_intror I)). destruct x as [sy lo hi n|sy lo hi n|v ns]; cbn [act_fine] in *.
      * destruct Fi as (F1 & F2 & F3 & F4 & F5). rewrite Kp by lia. auto.
      * destruct Fi as (F1 & F2 & F3 & F4). rewrite Kp by lia. auto.
      * intros n In_. destruct (Fi n In_). rewrite Kp by lia. auto.
    + exists b3, role3. split; [exact E3|]. split; [exact So3|]. split; [lia|]. split; [intros n L; rewrite Kp3 by lia; now apply Kp|].
      split; [eauto using incl_tran|]. split; [|].
      * intros n p lo hi L R. pose proof (Po3 n p lo hi L R) as L2. rewrite (Kp3 n L2) in R. eauto.
      * intros v ns n [->|I] J; [|eauto]. destruct (Cs v ns n eq_refl J) as (m & L & R & K). exists m. split; [lia|]. split; [rewrite Kp3 by exact L; exact R|now apply Ic3].
Qed.

(** * What has been done so far *)
(** The bits of an output port are read behind it. *)
Definition own (x : item) (t j : nat) : Prop := match x with XPort p lo hi => t = fp_sy p /\ lo <= j <= hi /\ in_range (fp_drivers p) false j | _ => False end.
(** Node [n] has everything that the connections [cs] give to what it stands for. *)
Record done (b : bld) (role : nat -> item) (cs : list (fconn V)) (n : nat) : Prop := {
  dn_port : forall p lo hi, role n = XPort p lo hi -> PN b1 n (fp_id p) lo hi;
  dn_w : forall t j, item_writes rb cs (role n) t j -> drives_global (bdm b) t (Z.of_nat j) n /\ Hk ports b1 b n t j;
  dn_r : forall t j, item_reads vz rb cs (role n) t j -> pended (bpend b) n t (Z.of_nat j) \/ own (role n) t j;
  dn_c : item_constant vz rb cs (role n) -> exists m, m < bnext b /\ role m = XConst /\ In (DPlain m n) (bdeps b) }.
Definition all_done (b : bld) (role : nat -> item) (cs : list (fconn V)) : Prop := forall n, n < bnext b -> done b role cs n.
Lemma done_grow b b' role role' cs n : grow b b' -> (forall m, m < bnext b -> role' m = role m) -> n < bnext b -> done b role cs n -> done b' role' cs n.
Proof.
  intros G Kp L [D1 D2 D3 D4]. split; rewrite Kp by exact L.
  - exact D1.
  - intros t j H. destruct (D2 t j H) as [A B]. split; [apply (g_dm _ _ G), A|eapply Hk_grow; eauto].
  - intros t j H. destruct (D3 t j H) as [A|A]; [left|now right]. eapply pended_incl; [apply (g_pend _ _ G)|exact A].
  - intros H. destruct (D4 H) as (m & Lm & R & I). exists m. pose proof (g_next _ _ G). split; [lia|]. split; [now rewrite Kp|apply (g_dep _ _ G), I].
Qed.
Lemma const_done b role cs n : role n = XConst -> done b role cs n.
Proof. intros R. split; rewrite R; cbn; try discriminate; intros; contradiction. Qed.

(** * One connection *)
Definition acts_trace (l : list (@pact V)) : trace := flat_map (fun a => match a with PDrive sy lo hi n => [(0, sy, zrange lo hi)] | _ => [] end) l.
Lemma in_trace l : (forall sy lo hi n, In (PDrive sy lo hi n) l -> lo <= hi) -> forall t x y,
  inW (acts_trace l) t x y <-> exists lo hi n, In (PDrive t lo hi n) l /\ x = Z.of_nat lo /\ y = Z.of_nat hi.
Proof.
  intros Or t x y. split.
  - intros (k & b & I & E1 & E2). unfold acts_trace in I. apply in_flat_map in I. destruct I as (a & Ia & I).
    destruct a as [sy lo hi n|sy lo hi n|v ns]; [|destruct I|destruct I]. destruct I as [Q|[]]. injection Q as <- <- <-.
    exists lo, hi, n. split; [exact Ia|]. destruct (zlu lo hi) as [Z1 Z2]; [eapply Or; eauto|]. split; congruence.
  - intros (lo & hi & n & I & -> & ->). exists 0, (zrange lo hi). destruct (zlu lo hi) as [Z1 Z2]; [eapply Or; eauto|]. split; [|auto].
    unfold acts_trace. apply in_flat_map. exists (PDrive t lo hi n). split; [exact I|now left].
Qed.
Lemma trace_ok l : (forall sy lo hi n, In (PDrive sy lo hi n) l -> lo <= hi) -> apart_drives l -> aligned_writes (acts_trace l).
Proof.
  intros Or Ap k sy b k' b' I I'.
  destruct (proj1 (in_trace l Or sy (lower b) (upper b))) as (lo & hi & n & J & E1 & E2); [exists k, b; auto|].
  destruct (proj1 (in_trace l Or sy (lower b') (upper b'))) as (lo' & hi' & n' & J' & E1' & E2'); [exists k', b'; auto|].
  destruct (Ap _ _ _ _ _ _ _ J J'); lia.
Qed.
Lemma port_item s role W D c n : sound s role W D -> In c conns -> (exists x, In x (port_entries (fb s) (fc_port c)) /\ ival x = n) ->
  exists p lo hi, In p ports /\ fp_id p = fc_port c /\ PN b1 n (fp_id p) lo hi /\ role n = XPort p lo hi /\ n < bnext b1.
Proof.
  intros So Ic (x & Ix & E). destruct (w_conn _ _ _ _ _ _ Wf c Ic) as (_ & _ & p & Ip & Ei & _).
  rewrite <- Ei in Ix. apply (entries h nm ports b1 ops Pm) in Ix; [|apply (s_vt _ _ _ _ So)]. destruct Ix as (n' & lo & hi & N & ->). cbn in E. subst n'.
  exists p, lo, hi. split; [exact Ip|]. split; [exact Ei|]. split; [exact N|]. split; [now apply (s_port _ _ _ _ So)|]. exact (pm_ids _ _ _ _ Pm _ _ N).
Qed.
Lemma carried s role W D c n k : sound s role W D -> In c conns -> carries (port_entries (fb s) (fc_port c)) n k ->
  exists p lo hi, In p ports /\ fp_id p = fc_port c /\ role n = XPort p lo hi /\ n < bnext b1 /\ lo <= k <= hi.
Proof.
  intros So Ic Ca. destruct (port_item s role W D c n So Ic) as (p & lo & hi & Ip & Ei & N & R & L); [destruct Ca as (x & Ix & E & _); eauto|].
  exists p, lo, hi. split; [exact Ip|]. split; [exact Ei|]. split; [exact R|]. split; [exact L|].
  apply (carries_iff h nm ports b1 ops Pm) in Ca; [|apply (s_vt _ _ _ _ So)]. destruct Ca as (lo' & hi' & N' & Lk). rewrite Ei in N.
  pose proof (pm_uniq _ _ _ _ Pm _ _ _ N N') as Q. injection Q as Q1 Q2. lia.
Qed.

Lemma input_bits_in p i : In (fp_sy p, i) (input_bits p) <-> in_range (fp_drivers p) true i.
Proof.
  unfold input_bits. rewrite in_flat_map. split.
  - intros ([[lo hi] x] & I & J). destruct x; [|destruct J]. apply in_map_iff in J. destruct J as (k & Q & Ik). apply in_seq in Ik. injection Q as <-.
    exists lo, hi. split; [exact I|lia].
  - intros (lo & hi & I & L). exists (lo, hi, true). split; [exact I|]. apply in_map_iff. exists (i - lo). split; [f_equal; lia|]. apply in_seq. lia.
Qed.

(** Bits driven by connections and assignments are not bits of input ports. *)
Lemma not_input sy i : In (sy, i) (flat_map output_bits conns ++ flat_map (fun a => lbits (fa_lhs a)) asgs) ->
  forall p, In p ports -> fp_sy p = sy -> ~ in_range (fp_drivers p) true i.
Proof.
  intros I p Ip <- R. unfold one_driver, all_driven in One.
  assert (J : In (fp_sy p, i) (flat_map input_bits ports)) by (apply in_flat_map; exists p; split; [exact Ip|now apply input_bits_in]).
  destruct (nodup_split _ _ One) as (_ & _ & N). exact (N _ J I).
Qed.

Lemma sound_gok s role W D : sound s role W D -> gok (fb s).
Proof. intros So sy d E. destruct (s_dm _ _ _ _ So sy d E) as [K1 K2 _ _]. split; [exact K1|exact (proj1 K2)]. Qed.
(** What the connections so far and one more give. *)
Lemma done_more b role cs c n : done b role cs n ->
  (forall p lo hi, role n = XPort p lo hi -> fc_port c = fp_id p ->
    (fc_out c = true -> forall k t i, at_port rb lo hi k -> nth_error (lbits (fc_actual c)) k = Some (t, i) -> drives_global (bdm b) t (Z.of_nat i) n /\ Hk ports b1 b n t i) /\
    (fc_out c = false -> forall k, at_port rb lo hi k ->
      (forall t i, origin vz rb (fc_actual c) k t i -> pended (bpend b) n t (Z.of_nat i)) /\
      (constant_at vz rb (fc_actual c) k -> exists m, m < bnext b /\ role m = XConst /\ In (DPlain m n) (bdeps b)))) -> done b role (cs ++ [c]) n.
Proof.
  intros [D1 D2 D3 D4] H. split; [exact D1| | |].
  - intros t j Wr. destruct (role n) as [p lo hi|a lo hi|] eqn:R; cbn [item_writes] in *; auto.
    destruct Wr as [Wr|(c' & k & I & Oc & Pc & At & K)]; [apply D2; now left|]. apply in_app_or in I. destruct I as [I|[<-|[]]].
    + apply D2. right. exists c', k. auto.
    + destruct (H p lo hi eq_refl Pc) as [H1 _]. eapply H1; eauto.
  - intros t j Rd. destruct (role n) as [p lo hi|a lo hi|] eqn:R; cbn [item_reads] in *; auto.
    destruct Rd as [Rd|(c' & k & I & Oc & Pc & At & K)]; [apply D3; now left|]. apply in_app_or in I. destruct I as [I|[<-|[]]].
    + apply D3. right. exists c', k. auto.
    + destruct (H p lo hi eq_refl Pc) as [_ H2]. left. eapply H2; eauto.
  - intros Rd. destruct (role n) as [p lo hi|a lo hi|] eqn:R; cbn [item_constant] in *; auto.
    destruct Rd as (c' & k & I & Oc & Pc & At & K). apply in_app_or in I. destruct I as [I|[<-|[]]].
    + apply D4. exists c', k. auto.
    + destruct (H p lo hi eq_refl Pc) as [_ H2]. eapply H2; eauto.
Qed.

Lemma conn_s b f role W D c cs : In c conns -> sound (FL b f) role W D -> all_done b role cs -> bnext b1 <= bnext b -> (forall x, In x D -> ~ In x (output_bits c)) -> NoDup (output_bits c) ->
  exists b' role' W', connect vz rb nm ports b c = DOk b' /\ sound (FL b' f) role' W' (D ++ output_bits c) /\ all_done b' role' (cs ++ [c]) /\ bnext b <= bnext b'.
Proof.
  intros Ic So Dn Nx Ds Nd. pose proof (conn_in_port vz rb h nm ports conns asgs Wf b1 ops Pm b c Ic (s_vt _ _ _ _ So)) as Ip.
  destruct (w_conn _ _ _ _ _ _ Wf c Ic) as (Wp & Ew & _). unfold connect. set (m := port_entries b (fc_port c)) in *. unfold output_bits in *. destruct (fc_out c) eqn:Out.
  - (* output *)
    destruct (w_out _ _ _ _ _ _ Wf c Ic Out) as (Lv & T & Id & Un).
    assert (H : exists l, handlePortConnection vz epaths rb true true m (fc_w c) (fc_actual c) = Some l /\ apart_drives l /\
      (forall sy lo hi n, ~ In (PRead sy lo hi n) l) /\ (forall v ns, ~ In (PConst v ns) l) /\
      forall sy lo hi n, In (PDrive sy lo hi n) l -> lo <= hi /\ (exists x, In x m /\ ival x = n) /\
        forall x, lo <= x <= hi -> exists k, nth_error (lbits (fc_actual c)) k = Some (sy, x) /\ (rb = true -> carries m n k)).
    { destruct rb.
      - destruct (aligned_out vz m (fc_w c) Ip Wp (fc_actual c) Lv T Ew) as (l & El & (O1 & _)). exists l. split; [exact El|].
        destruct (aligned_drives vz m (fc_w c) Ip Wp (fc_actual c) l Lv T Ew Nd El) as (Ap & Nr & Nc). split; [exact Ap|]. split; [exact Nr|]. split; [exact Nc|].
        intros sy lo hi n I. destruct (aligned_run vz m (fc_w c) Ip Wp (fc_actual c) l Lv T Ew El _ _ _ _ I) as (k & R). destruct (O1 _ _ _ _ I) as [L _].
        split; [exact L|]. split.
        + destruct (R lo) as [_ (x & Ix & E & _)]; [lia|]. eauto.
        + intros x Lx. destruct (R x Lx) as [R1 R2]. eauto.
      - exists (M_Port.legacy epaths m true (fc_actual c)). split; [reflexivity|].
        destruct (legacy_drives vz m (fc_w c) Wp (fc_actual c) Lv T Nd) as (Ap & Nr & Nc & Dm). split; [exact Ap|]. split; [exact Nr|]. split; [exact Nc|].
        destruct (legacy_out vz m (fc_actual c) Lv T) as [O1 _]. intros sy lo hi n I. destruct (O1 _ _ _ _ I) as (L & q & Iq & R & Q1 & Q2).
        split; [exact L|]. split; [now apply (Dm sy lo hi n)|]. intros x Lx.
        assert (J : In (sy, x) (lbits (fc_actual c))) by (apply (path_bit vz (fc_actual c) Lv T q sy x Iq R); lia). apply In_nth_error in J. destruct J as (k & K). exists k. split; [exact K|discriminate]. }
    destruct H as (l & El & Ap & Nr & Nc & Dl). rewrite El.
    assert (Or : forall sy lo hi n, In (PDrive sy lo hi n) l -> lo <= hi) by (intros sy lo hi n I; now destruct (Dl _ _ _ _ I)).
    assert (Wi : within (acts_trace l) (lbits (fc_actual c))).
    { intros t x y i I L. apply in_trace in I; [|exact Or]. destruct I as (lo & hi & n & I & -> & ->). destruct (Dl _ _ _ _ I) as (_ & _ & Q).
      destruct (Q (Z.to_nat i)) as (k & K & _); [lia|]. exists (Z.to_nat i). split; [lia|]. eapply nth_error_In; eauto. }
    pose proof (sound_more _ _ _ _ (acts_trace l) _ So (trace_ok l Or Ap) Wi Ds) as So'.
    destruct (acts_s f _ _ l b role So' Nx) as (b' & role' & E & So2 & Nx2 & Kp & _ & Po & _).
    { intros a Ia. destruct a as [sy lo hi n|sy lo hi n|v ns]; [|destruct (Nr _ _ _ _ Ia)|destruct (Nc _ _ Ia)].
      destruct (Dl _ _ _ _ Ia) as (L & Em & Q). destruct (port_item _ role W D c n So Ic Em) as (p & a & z & Ipp & Ei & N & R & Ln). cbn [act_fine].
      split; [exact L|]. split; [apply (proj2 (inW_app _ _ _ _ _)); right; apply (proj2 (in_trace l Or _ _ _)); exists lo, hi, n; auto|]. split; [exact Ln|]. split.
      - intros j Lj. destruct (Q j Lj) as (k & K & Ca). rewrite R. right. exists c, k. split; [exact Ic|]. split; [exact Out|]. split; [congruence|]. split; [|exact K].
        intros Eb. destruct (carried _ role W D c n k So Ic (Ca Eb)) as (p' & a' & z' & _ & _ & R' & _ & Lk). rewrite R in R'. injection R' as <- <- <-. exact Lk.
      - destruct (Q lo) as (k & K & _); [lia|]. apply not_input. apply in_or_app. left. apply in_flat_map. exists c. split; [exact Ic|]. unfold output_bits. rewrite Out. eapply nth_error_In; eauto. }
    exists b', role', (W ++ acts_trace l). split; [exact E|]. split; [exact So2|]. split; [|exact Nx2].
    destruct (out_list vz rb h nm ports conns asgs Wf b1 ops Pm b c Ic (s_vt _ _ _ _ So) Out) as (l' & El' & (O1 & O2) & O3). fold m in El', O2. rewrite El in El'. injection El' as <-.
    destruct (acts_ok nm ports l b (sound_gok _ _ _ _ So) Or) as (b2 & Ea & _ & Gr & _ & Dd). rewrite E in Ea. injection Ea as <-.
    intros n Ln. destruct (Nat.lt_ge_cases n (bnext b)) as [L0|L0].
    2: { destruct (role' n) as [p lo hi|a lo hi|] eqn:R.
         - specialize (Po n p lo hi Ln R). lia.
         - destruct (s_all _ _ _ _ So2 n Ln) as [(k & I)|(k & I)]; [|destruct (s_fn _ _ _ _ So n k I) as [L1 _]; cbn in L1; lia].
           destruct (s_bn _ _ _ _ So2 n k I) as [_ Q]. destruct k; try contradiction; [destruct Q as (q & x & y & Q & _)|]; congruence.
         - now apply const_done. }
    apply done_more; [eapply done_grow; eauto|]. intros p lo hi R Pc. rewrite Kp in R by exact L0. split; [|intros Q; rewrite Out in Q; discriminate].
    intros _ k t i At K. pose proof (dn_port _ _ _ _ (Dn n L0) p lo hi R) as N.
    assert (Db : drives_bit l n t i).
    { destruct rb eqn:Rb.
      - apply (O2 n k t i); [|exact K]. apply (carries_iff h nm ports b1 ops Pm); [apply (s_vt _ _ _ _ So)|]. exists lo, hi. rewrite Pc. split; [exact N|now apply At].
      - unfold handlePortConnection in El. cbn [negb] in El. injection El as <-.
        apply (legacy_drives_all vz m (fc_actual c) Lv T (IV (Z.of_nat lo) (Z.of_nat hi) n)); [|eapply nth_error_In; eauto].
        apply (entries h nm ports b1 ops Pm); [apply (s_vt _ _ _ _ So)|]. exists n, lo, hi. rewrite Pc. auto. }
    destruct Db as (a & d & Id' & La). destruct (Dd _ _ _ _ Id') as [D1 D2]. destruct (O1 _ _ _ _ Id') as (Lad & q & Iq & Rq & Q1 & Q2).
    split; [now apply D1|]. apply (hook_ok vz rb h nm ports conns asgs Wf b1 ops Pm b' n t a d i [n]); auto; [now left| | |].
    + intros q' Iq' Eq'. destruct (Id q q' Iq Iq') as (lo0 & hi0 & x0 & I0 & L0' & L0''); [congruence|]. exists lo0, hi0, x0. split; [exact I0|lia].
    + intros l0 d0 Eh Ih. exact (O3 _ _ _ _ _ _ Id' Eh Ih).
    + pose proof (s_vt _ _ _ _ So) as Vt. cbn [fb] in Vt. now rewrite <- Vt.
  - (* input *)
    destruct (w_in _ _ _ _ _ _ Wf c Ic Out) as (Po & Np & Rb). rewrite app_nil_r.
    assert (H : exists l, handlePortConnection vz epaths rb true false m (fc_w c) (fc_actual c) = Some l /\ (forall sy lo hi n, ~ In (PDrive sy lo hi n) l) /\
      (forall v ns n, In (PConst v ns) l -> In n ns -> rb = true /\ exists k z, carries m n k /\ In (AConst z) (nth k (bits vz (fc_actual c)) [])) /\
      forall sy lo hi n, In (PRead sy lo hi n) l -> lo <= hi /\ (exists x, In x m /\ ival x = n) /\
        forall x, lo <= x <= hi -> In (sy, x) (reads (fc_actual c)) /\ exists k, origin vz rb (fc_actual c) k sy x /\ (rb = true -> carries m n k)).
    { destruct rb.
      - destruct (Rb eq_refl) as (R1 & R2 & R3 & R4). destruct (aligned_in vz m (fc_w c) Ip Wp (fc_actual c) Po R3 Ew R1 R2 R4) as (l & El & _). exists l. split; [exact El|].
        destruct (aligned_reads vz m (fc_w c) Ip Wp (fc_actual c) l Po R3 Ew El) as (A1 & A2 & A3). split; [exact A2|]. split; [intros v ns n I J; split; [reflexivity|eauto]|].
        intros sy lo hi n I. destruct (A1 _ _ _ _ I) as [L Q]. split; [exact L|]. split.
        + destruct (Q lo) as (k & a & (x & Ix & E & _) & _); [lia|]. eauto.
        + intros x Lx. destruct (Q x Lx) as (k & a & Ca & Ia & J). destruct (atom_sub vz _ Po k a Ia) as [_ Sub]. split; [now apply Sub|]. exists k. split; [|auto]. unfold origin. eauto.
      - exists (M_Port.legacy epaths m false (fc_actual c)). split; [reflexivity|]. destruct (legacy_reads m (fc_actual c) Po) as (A1 & A2 & A3). split; [exact A2|].
        split; [intros v ns n I; destruct (A3 _ _ I)|]. intros sy lo hi n I. destruct (A1 _ _ _ _ I) as (L & Em & Q). split; [exact L|]. split; [exact Em|].
        intros x Lx. split; [now apply Q|]. exists 0. split; [now apply Q|discriminate]. }
    destruct H as (l & El & Nd' & Cl & Rl). rewrite El.
    destruct (acts_s f W D l b role So Nx) as (b' & role' & E & So2 & Nx2 & Kp & _ & Po' & Cs).
    { intros a Ia. destruct a as [sy lo hi n|sy lo hi n|v ns]; [destruct (Nd' _ _ _ _ Ia)| |]; cbn [act_fine].
      - destruct (Rl _ _ _ _ Ia) as (L & Em & Q). destruct (port_item _ role W D c n So Ic Em) as (p & a & z & Ipp & Ei & N & R & Ln).
        split; [exact L|]. split; [exact Ln|]. split.
        + intros j Lj. destruct (Q j Lj) as (_ & k & Og & Ca). rewrite R. right. exists c, k. split; [exact Ic|]. split; [exact Out|]. split; [congruence|]. split; [|exact Og].
          intros Eb. destruct (carried _ role W D c n k So Ic (Ca Eb)) as (p' & a' & z' & _ & _ & R' & _ & Lk). rewrite R in R'. injection R' as <- <- <-. exact Lk.
        + intros q Iq. destruct (Q lo) as [J _]; [lia|]. eapply Np; eauto.
      - intros n In_. destruct (Cl _ _ _ Ia In_) as (Eb & k & z & Ca & Iz). destruct (carried _ role W D c n k So Ic Ca) as (p & lo & hi & Ipp & Ei & R & Ln & Lk).
        split; [exact Ln|]. rewrite R. exists c, k. split; [exact Ic|]. split; [exact Out|]. split; [congruence|]. split; [intros _; exact Lk|]. split; [exact Eb|eauto]. }
    exists b', role', W. split; [exact E|]. split; [exact So2|]. split; [|exact Nx2].
    destruct (acts_ok nm ports l b (sound_gok _ _ _ _ So)) as (b2 & Ea & _ & Gr & Rd' & _); [intros sy lo hi n I; now destruct (Nd' _ _ _ _ I)|]. rewrite E in Ea. injection Ea as <-.
    intros n Ln. destruct (Nat.lt_ge_cases n (bnext b)) as [L0|L0].
    2: { destruct (role' n) as [p lo hi|a lo hi|] eqn:R.
         - specialize (Po' n p lo hi Ln R). lia.
         - destruct (s_all _ _ _ _ So2 n Ln) as [(k & I)|(k & I)]; [|destruct (s_fn _ _ _ _ So n k I) as [L1 _]; cbn in L1; lia].
           destruct (s_bn _ _ _ _ So2 n k I) as [_ Q]. destruct k; try contradiction; [destruct Q as (q & x & y & Q & _)|]; congruence.
         - now apply const_done. }
    apply done_more; [eapply done_grow; eauto|]. intros p lo hi R Pc. rewrite Kp in R by exact L0. split; [intros Q; rewrite Out in Q; discriminate|].
    intros _ k At. pose proof (dn_port _ _ _ _ (Dn n L0) p lo hi R) as N.
    assert (Ca : rb = true -> carries m n k).
    { intros Rb'. apply (carries_iff h nm ports b1 ops Pm); [apply (s_vt _ _ _ _ So)|]. exists lo, hi. rewrite Pc. split; [exact N|now apply At]. }
    split.
    + intros t i Og. assert (Rb' : reads_bit l n t i).
      { unfold origin in Og. destruct rb eqn:Eb.
        - destruct (Rb eq_refl) as (R1 & R2 & R3 & R4). destruct Og as (a & Ia & Ir).
          eapply (proj1 (aligned_reads_all vz m (fc_w c) Ip Wp (fc_actual c) l Po R3 Ew El)); eauto.
        - unfold handlePortConnection in El. cbn [negb] in El. injection El as <-.
          apply (legacy_reads_all m (fc_actual c) Po (IV (Z.of_nat lo) (Z.of_nat hi) n)); [|exact Og].
          apply (entries h nm ports b1 ops Pm); [apply (s_vt _ _ _ _ So)|]. exists n, lo, hi. rewrite Pc. auto. }
      destruct Rb' as (a & d & I & La). exists (Pend t (nm t) (zrange a d) (Some n) EKNone). split; [now apply Rd'|]. cbn. split; [reflexivity|]. split; [reflexivity|]. rewrite zbit; lia.
    + intros (Eb & z & Iz). rewrite Eb in El. destruct (Rb Eb) as (R1 & R2 & R3 & R4).
      destruct (proj2 (aligned_reads_all vz m (fc_w c) Ip Wp (fc_actual c) l Po R3 Ew El) n k z (Ca Eb) Iz) as (v & ns & I1 & I2). eapply Cs; eauto.
Qed.
Lemma conns_s f : forall l b role W D cs, incl l conns -> sound (FL b f) role W D -> all_done b role cs -> bnext b1 <= bnext b -> NoDup (D ++ flat_map output_bits l) ->
  exists b' role' W', connect_all vz rb nm ports b l = DOk b' /\ sound (FL b' f) role' W' (D ++ flat_map output_bits l) /\ all_done b' role' (cs ++ l) /\ bnext b <= bnext b'.
Proof.
  induction l as [|c l IH]; intros b role W D cs Il So Dn Nx Nd; cbn [connect_all flat_map].
  - exists b, role, W. rewrite !app_nil_r. auto.
  - cbn [flat_map] in Nd. rewrite app_assoc in Nd.
    destruct (nodup_split _ _ Nd) as (Nd1 & _). destruct (nodup_split _ _ Nd1) as (_ & Nd2 & Nd3).
    destruct (conn_s b f role W D c cs (Il c (or_introl eq_refl)) So Dn Nx) as (b2 & role2 & W2 & E2 & So2 & Dn2 & Nx2).
    { exact Nd3. }
    { exact Nd2. }
    rewrite E2. cbn [dbind]. destruct (IH b2 role2 W2 (D ++ output_bits c) (cs ++ [c])) as (b3 & role3 & W3 & E3 & So3 & Dn3 & Nx3); auto; [intros x I; apply Il; now right|lia|].
    rewrite <- app_assoc in So3, Dn3. exists b3, role3, W3. split; [exact E3|]. split; [exact So3|]. split; [exact Dn3|lia].
Qed.
End F.
