(** Proofs about whole designs: connections and assignments. *)
From Coq Require Import Sorted.
From Verif Require Import Base M_Graph M_Range M_Netlist M_Annot M_Interval M_Heap M_Drivers M_Pending M_DFA M_Builder M_Slice M_Port M_Flow
  S_Reach S_Netlist S_Annot S_Interval S_Drivers S_Pending S_DFA S_Builder S_Slice S_Port S_Flow
  P_Interval P_Heap P_Drivers P_DriversX P_Annot P_Pending P_DFA P_DFA2 P_Builder P_Slice P_Slice2 P_Port P_Port2 P_Port3 P_Flow P_Flow2 P_Flow3 P_Flow4 P_Flow5.

(** * Growth *)
Record grow (b b' : bld) : Prop := {
  g_vt : bvt b' = bvt b;
  g_old : incl (bnodes b) (bnodes b');
  g_new : forall n k, In (n, k) (bnodes b') -> In (n, k) (bnodes b) \/ k = BConst;
  g_dep : incl (bdeps b) (bdeps b');
  g_pend : incl (bpend b) (bpend b');
  g_dm : forall sy i n, drives_global (bdm b) sy i n -> drives_global (bdm b') sy i n;
  g_next : bnext b <= bnext b' }.
Lemma grow_refl b : grow b b.
Proof. split; auto using incl_refl. Qed.
Lemma grow_trans a b c : grow a b -> grow b c -> grow a c.
Proof.
  intros [A1 A2 A3 A4 A5 A6 A7] [B1 B2 B3 B4 B5 B6 B7]. split; eauto using incl_tran; try congruence; try lia.
  intros n k I. destruct (B3 n k I) as [J|J]; auto.
Qed.

Section B.
Variable nm : nat -> str.
Variable ports : list fport.
Notation hook := (hookupOutputPort nm (port_refs ports)).

Lemma act_ok {V} s (a : @pact V) : gok s -> (forall sy lo hi n, a = PDrive sy lo hi n -> lo <= hi) ->
  exists s', apply_act variables nm (port_refs ports) no_modports s a = DOk s' /\ gok s' /\ grow s s' /\
    (forall sy lo hi n, a = PRead sy lo hi n -> In (Pend sy (nm sy) (zrange lo hi) (Some n) EKNone) (bpend s')) /\
    (forall sy lo hi n, a = PDrive sy lo hi n -> (forall i, lo <= i <= hi -> drives_global (bdm s') sy (Z.of_nat i) n) /\
       incl (hook (bvt s) sy (zrange lo hi) [n]) (bdeps s')).
Proof.
  intros G Lo. destruct (apply_one variables nm (port_refs ports) no_modports s a G Lo) as (s' & E & G' & Vt & (new & Nw) & (ds & Ds) & Pd & Dm & Dr & Cn & _).
  exists s'. split; [exact E|]. split; [exact G'|].
  assert (Old : forall n k, In (n, k) (bnodes s') -> In (n, k) (bnodes s) \/ k = BConst).
  { intros n k I. destruct a as [sy lo hi m|sy lo hi m|v ns]; cbn [apply_act] in E.
    - unfold baddDrivers in E. destruct (addDrivers _ _ _ _); cbn [dbind] in E; [|discriminate]. injection E as <-. now left.
    - cbn in E. injection E as <-. now left.
    - injection E as <-. cbn in I. apply in_app_or in I. destruct I as [I|[[= <- <-]|[]]]; auto. }
  assert (Nx : bnext s <= bnext s').
  { destruct a as [sy lo hi m|sy lo hi m|v ns]; cbn [apply_act] in E.
    - unfold baddDrivers in E. destruct (addDrivers _ _ _ _); cbn [dbind] in E; [|discriminate]. injection E as <-. cbn. lia.
    - cbn in E. injection E as <-. cbn. lia.
    - injection E as <-. cbn. lia. }
  split; [|split].
  - split; auto.
    + rewrite Nw. intros x I. apply in_or_app. now left.
    + rewrite Ds. intros x I. apply in_or_app. now left.
    + rewrite Pd. intros x I. apply in_or_app. now left.
  - intros sy lo hi n ->. rewrite Pd. apply in_or_app. right. cbn. now left.
  - intros sy lo hi n ->. split; [intros i L; exact (Dr sy lo hi n i eq_refl L)|].
    cbn [apply_act] in E. unfold baddDrivers in E. destruct (addDrivers _ _ _ _); cbn [dbind] in E; [|discriminate]. injection E as <-.
    cbn. intros x I. apply in_or_app. now right.
Qed.

Lemma acts_ok {V} : forall (l : list (@pact V)) s, gok s -> (forall sy lo hi n, In (PDrive sy lo hi n) l -> lo <= hi) ->
  exists s', apply_acts variables nm (port_refs ports) no_modports s l = DOk s' /\ gok s' /\ grow s s' /\
    (forall sy lo hi n, In (PRead sy lo hi n) l -> In (Pend sy (nm sy) (zrange lo hi) (Some n) EKNone) (bpend s')) /\
    (forall sy lo hi n, In (PDrive sy lo hi n) l -> (forall i, lo <= i <= hi -> drives_global (bdm s') sy (Z.of_nat i) n) /\
       incl (hook (bvt s) sy (zrange lo hi) [n]) (bdeps s')).
Proof.
  induction l as [|a l IH]; intros s G Lo; cbn [apply_acts].
  - exists s. split; [reflexivity|]. split; [exact G|]. split; [apply grow_refl|]. split; intros sy lo hi n [].
  - destruct (act_ok s a G) as (s1 & E1 & G1 & W1 & R1 & D1); [intros sy lo hi n ->; apply (Lo sy lo hi n); now left|].
    rewrite E1. cbn [dbind]. destruct (IH s1 G1) as (s2 & E2 & G2 & W2 & R2 & D2); [intros sy lo hi n I; apply (Lo sy lo hi n); now right|].
    exists s2. split; [exact E2|]. split; [exact G2|]. split; [eapply grow_trans; eauto|]. split.
    + intros sy lo hi n [->|I]; [|now apply R2]. apply (g_pend _ _ W2). now apply R1.
    + intros sy lo hi n [->|I].
      * destruct (D1 sy lo hi n eq_refl) as [A B]. split; [intros i L; apply (g_dm _ _ W2); auto|].
        intros x J. apply (g_dep _ _ W2), B, J.
      * destruct (D2 sy lo hi n I) as [A B]. rewrite (g_vt _ _ W1) in B. auto.
Qed.

Variable width : nat -> Z.
Notation mergeI := (mergeInterval variables nm (port_refs ports) width no_modports []).
Notation mergeIs := (mergeIntervals variables nm (port_refs ports) width no_modports []).
Notation mergeD := (mergeDrivers variables nm (port_refs ports) width no_modports []).

Lemma interval_ok s sy d x l : gok s -> get (lists d) (ival x) = Some l -> (ilo x <= ihi x)%Z ->
  exists s', mergeI s sy d x = DOk s' /\ gok s' /\ grow s s' /\
    (forall i n, (ilo x <= i <= ihi x)%Z -> In n l -> drives_global (bdm s') sy i n) /\
    incl (hook (bvt s) sy (Range (ilo x) (ihi x)) l) (bdeps s').
Proof.
  intros G El Lx. destruct (comb_interval variables nm (port_refs ports) width no_modports s sy d x l G El Lx) as (s' & E & G' & A1 & A2 & A3 & A4 & (ds & A5) & A6 & A7 & A8).
  exists s'. split; [exact E|]. split; [exact G'|]. split; [|split; [exact A8|]].
  - split; auto.
    + rewrite A2. apply incl_refl.
    + rewrite A2. auto.
    + rewrite A5. intros y I. apply in_or_app. now left.
    + rewrite A4. apply incl_refl.
    + lia.
  - unfold mergeInterval, getDriverList in E. rewrite El in E. cbn [dbind] in E. unfold baddDrivers in E.
    destruct (addDrivers _ _ _ _); cbn [dbind] in E; [|discriminate]. injection E as <-. cbn. intros y I. apply in_or_app. left. apply in_or_app. now right.
Qed.
Lemma intervals_ok sy d : allvalid d -> forall its s, gok s -> (forall x, In x its -> In x (ivs d) /\ (ilo x <= ihi x)%Z) ->
  exists s', mergeIs s sy d its = DOk s' /\ gok s' /\ grow s s' /\
    forall x l, In x its -> get (lists d) (ival x) = Some l ->
      (forall i n, (ilo x <= i <= ihi x)%Z -> In n l -> drives_global (bdm s') sy i n) /\
      incl (hook (bvt s) sy (Range (ilo x) (ihi x)) l) (bdeps s').
Proof.
  intros Va. induction its as [|x its IH]; intros s G H; cbn [mergeIntervals].
  - exists s. split; [reflexivity|]. split; [exact G|]. split; [apply grow_refl|]. intros x l [].
  - destruct (H x (or_introl eq_refl)) as [Ix Lx]. destruct (get (lists d) (ival x)) as [l|] eqn:El; [|destruct (Va x Ix El)].
    destruct (interval_ok s sy d x l G El Lx) as (s1 & E1 & G1 & W1 & D1 & H1). rewrite E1. cbn [dbind].
    destruct (IH s1 G1) as (s2 & E2 & G2 & W2 & D2); [intros y I; apply H; now right|].
    exists s2. split; [exact E2|]. split; [exact G2|]. split; [eapply grow_trans; eauto|].
    intros y l' [<-|I] El'.
    + rewrite El in El'. injection El' as <-. split; [intros i n L I; apply (g_dm _ _ W2); auto|]. intros z J. apply (g_dep _ _ W2), H1, J.
    + rewrite <- (g_vt _ _ W1). now apply D2.
Qed.
Lemma merge_ok : forall blk s, gok s -> (forall sy d, In (sy, d) blk -> dok d /\ allvalid d) ->
  exists s', mergeD s blk = DOk s' /\ gok s' /\ grow s s' /\
    forall sy d x l, In (sy, d) blk -> In x (ivs d) -> get (lists d) (ival x) = Some l ->
      (forall i n, (ilo x <= i <= ihi x)%Z -> In n l -> drives_global (bdm s') sy i n) /\
      incl (hook (bvt s) sy (Range (ilo x) (ihi x)) l) (bdeps s').
Proof.
  induction blk as [|[sy d] blk IH]; intros s G H; cbn [mergeDrivers].
  - exists s. split; [reflexivity|]. split; [exact G|]. split; [apply grow_refl|]. intros sy d x l [].
  - destruct (H sy d (or_introl eq_refl)) as [Kd Vd].
    destruct (intervals_ok sy d Vd (ivs d) s G) as (s1 & E1 & G1 & W1 & D1).
    { intros x I. split; [exact I|]. destruct Kd as [W _]. apply wf_spec in W. now apply W. }
    rewrite E1. cbn [dbind]. destruct (IH s1 G1) as (s2 & E2 & G2 & W2 & D2); [intros sy' d' I; apply (H sy' d'); now right|].
    exists s2. split; [exact E2|]. split; [exact G2|]. split; [eapply grow_trans; eauto|].
    intros sy' d' x l [[= <- <-]|I] Ix El.
    + destruct (D1 x l Ix El) as [A B]. split; [intros i n L J; apply (g_dm _ _ W2); auto|]. intros z J. apply (g_dep _ _ W2), B, J.
    + rewrite <- (g_vt _ _ W1). eapply D2; eauto.
Qed.
End B.

Section F.
Context {V : Type}.
Variable vz : V.
Variable rb : bool.
Variable h : hints.
Variable nm : nat -> str.
Variable ports : list fport.
Variable conns : list (fconn V).
Variable asgs : list (fasg V).
Hypothesis Wf : wf_design vz rb h ports conns asgs.
(** One round of evaluation, in which every assignment and every connection reads [v] and
    writes [w]; a settled valuation is one that this leaves as it is. *)
Definition round (v w : nat -> nat -> V) : Prop :=
  (forall a, In a asgs -> eval vz w (fa_lhs a) = eval vz v (fa_rhs a)) /\
  (forall c, In c conns -> eval vz (if fc_out c then w else v) (fc_actual c) = map ((if fc_out c then v else w) (fc_sy c)) (seq 0 (fc_w c))).
Lemma settled_round v : settled vz conns asgs v <-> round v v.
Proof. split; intros [A B]; (split; [exact A|]); intros c I; specialize (B c I); destruct (fc_out c); exact B. Qed.
(** What else drives bits. *)
Variable ex : nat -> nat -> Prop.
Notation undriven := (fun v1 v2 : nat -> nat -> V => forall s i, ~ driven ports conns asgs s i -> ~ ex s i -> v1 s i = v2 s i).
Notation hook := (hookupOutputPort nm (port_refs ports)).

(** [b1]: after the ports have been made. *)
Variable b1 : bld.
Variable ops : list (nat * range * nat).
Hypothesis Pm : ports_made h ports b1 ops.

(** Two values after a round agree whenever the values in [A] agreed before. *)
Definition det (A : nat -> nat -> Prop) (s i : nat) : Prop := forall v1 w1 v2 w2, round v1 w1 -> round v2 w2 -> undriven v1 v2 ->
  (forall t j, A t j -> v1 t j = v2 t j) -> w1 s i = w2 s i.
(** What a node reads: what it has left to the pending queue; for an output port node, the symbol behind. *)
Definition Rd (b : bld) (n t j : nat) : Prop :=
  (pended (bpend b) n t (Z.of_nat j) /\ forall p, In p ports -> t <> fp_id p) \/
  exists p lo hi, In p ports /\ PN b1 n (fp_id p) lo hi /\ fp_sy p = t /\ lo <= j <= hi /\ ~ in_range (fp_drivers p) true j.
Definition Prov (b : bld) (n s i : nat) : Prop :=
  (exists p lo hi, free_input ports conns p i /\ fp_sy p = s /\ PN b1 n (fp_id p) lo hi /\ lo <= i <= hi) \/
  exists A, det A s i /\ forall t j, A t j -> Rd b n t j.
(** A driver has an edge to the port nodes of its symbol that carry the bit. *)
Definition Hk (b : bld) (n t j : nat) : Prop := forall q pn lo hi, In q ports -> fp_sy q = t -> PN b1 pn (fp_id q) lo hi -> lo <= j <= hi ->
  in_range (fp_drivers q) true j \/ exists e, In e (bdeps b) /\ dsrc e = n /\ dtgt e = pn /\ has_bit e (Z.of_nat j).
Definition Dr (b : bld) (t j : nat) : Prop :=
  (exists n, drives_global (bdm b) t (Z.of_nat j) n /\ Hk b n t j /\ Prov b n t j /\ n < bnext b) \/ det (fun _ _ => False) t j.

Lemma Rd_grow b b' n t j : grow b b' -> Rd b n t j -> Rd b' n t j.
Proof. intros G [[P N]|H]; [left; split; [|exact N]|now right]. eapply pended_incl; [apply (g_pend _ _ G)|exact P]. Qed.
Lemma Prov_grow b b' n t j : grow b b' -> Prov b n t j -> Prov b' n t j.
Proof. intros G [H|(A & D & H)]; [now left|]. right. exists A. split; [exact D|]. intros t' j' Q. eapply Rd_grow; eauto. Qed.
Lemma Hk_grow b b' n t j : grow b b' -> Hk b n t j -> Hk b' n t j.
Proof.
  intros G H q pn lo hi I E P L. destruct (H q pn lo hi I E P L) as [X|(e & J & X)]; [now left|]. right. exists e. split; [apply (g_dep _ _ G), J|exact X].
Qed.
Lemma Dr_grow b b' t j : grow b b' -> Dr b t j -> Dr b' t j.
Proof.
  intros G [(n & A & B & C & L)|D]; [left|now right]. exists n. split; [apply (g_dm _ _ G), A|]. split; [eapply Hk_grow; eauto|]. split; [eapply Prov_grow; eauto|].
  exact (Nat.lt_le_trans _ _ _ L (g_next _ _ G)).
Qed.

Lemma same_id p q : In p ports -> In q ports -> fp_id p = fp_id q -> p = q.
Proof.
  intros I J E. pose proof (w_ids _ _ _ _ _ _ Wf) as N. clear -I J E N. induction ports as [|x l IH]; [destruct I|]. cbn in N. inversion N as [|? ? N1 N2]; subst.
  destruct I as [<-|I], J as [<-|J]; auto; exfalso; apply N1; [rewrite E|rewrite <- E]; now apply in_map.
Qed.
Lemma same_sy p q : In p ports -> In q ports -> fp_sy p = fp_sy q -> p = q.
Proof.
  intros I J E. pose proof (w_syms _ _ _ _ _ _ Wf) as N. clear -I J E N. induction ports as [|x l IH]; [destruct I|]. cbn in N. inversion N as [|? ? N1 N2]; subst.
  destruct I as [<-|I], J as [<-|J]; auto; exfalso; apply N1; [rewrite E|rewrite <- E]; now apply in_map.
Qed.
Lemma refs_one q : In q ports -> port_refs ports (fp_sy q) = [fp_id q].
Proof.
  intros I. pose proof (w_syms _ _ _ _ _ _ Wf) as N. clear -I N. unfold port_refs. induction ports as [|x l IH]; [destruct I|].
  cbn in N. inversion N as [|? ? N1 N2]; subst. cbn [filter]. destruct I as [<-|I].
  - rewrite Nat.eqb_refl. cbn. f_equal. assert (Q : forall l', ~ In (fp_sy x) (map fp_sy l') -> filter (fun p => Nat.eqb (fp_sy p) (fp_sy x)) l' = []).
    { induction l' as [|y l' IH']; intros H; [reflexivity|]. cbn in *. destruct (Nat.eqb_spec (fp_sy y) (fp_sy x)) as [E|E]; [destruct H; auto|apply IH'; tauto]. }
    now rewrite Q.
  - destruct (Nat.eqb_spec (fp_sy x) (fp_sy q)) as [E|E]; [|now apply IH]. exfalso. apply N1. rewrite E. now apply in_map.
Qed.

(** A write inside one driver of a port and across no cut finds the port node. *)
Lemma hook_ok b n t a c j dl : In n dl -> a <= j <= c ->
  (forall q, In q ports -> fp_sy q = t -> exists lo hi x, In (lo, hi, x) (fp_drivers q) /\ lo <= a /\ c <= hi) ->
  (forall l d, h t = Some l -> In d l -> ~ a < d <= c) ->
  incl (hook (bvt b1) t (zrange a c) dl) (bdeps b) -> Hk b n t j.
Proof.
  clear ex. intros In_ L Dv Cut Inc q pn lo hi Iq Eq P Lj. right.
  destruct (Dv q Iq Eq) as (a0 & c0 & x0 & I0 & L0 & L0').
  destruct (pm_nodes _ _ _ _ Pm _ _ P) as (p & lo' & hi' & a1 & c1 & x1 & Ip & Ek & I1 & L1 & L1' & H1 & H2).
  injection Ek as Ek El Eh. assert (Q : lo = lo' /\ hi = hi') by lia. destruct Q as [-> ->].
  assert (p = q) by (apply same_id; auto). subst p.
  assert (a1 = a0 /\ c1 = c0).
  { destruct (w_drivers _ _ _ _ _ _ Wf q Iq) as [As Ra]. pose proof (As _ _ _ I0). pose proof (As _ _ _ I1).
    apply in_split in I1. destruct I1 as (l1 & l2 & E1). rewrite E1 in I0. apply in_app_or in I0. destruct I0 as [I0|[I0|I0]].
    - apply in_split in I0. destruct I0 as (l3 & l4 & ->). rewrite <- app_assoc in E1. cbn in E1. pose proof (Ra _ _ _ _ _ _ _ _ _ E1). lia.
    - inversion I0; auto.
    - apply in_split in I0. destruct I0 as (l3 & l4 & ->). pose proof (Ra _ _ _ _ _ _ _ _ _ E1). lia. }
  destruct H as [-> ->]. subst t.
  assert (Ilo : lo' <= a). { destruct H1 as [->|(hs & Eh1 & Ih)]; [exact L0|]. specialize (Cut hs lo' Eh1 Ih). lia. }
  assert (Ihi : c <= hi'). { destruct H2 as [->|(hs & Eh1 & Ih)]; [exact L0'|]. specialize (Cut hs (hi' + 1) Eh1 Ih). lia. }
  exists (DDep n pn (Some (nm (fp_sy q))) (zrange a c) EKNone). split; [|split; [reflexivity|split; [reflexivity|cbn; rewrite zbit; lia]]]. apply Inc. rewrite (pm_vt _ _ _ _ Pm).
  apply (hookup_exact variables nm (port_refs ports) no_width no_modports ops (fp_sy q) (fp_id q) (zrange a c) dl (refs_one q Iq) (pm_apart _ _ _ _ Pm)); [cbn; lia|].
  exists n, pn, (zrange lo' hi'). split; [reflexivity|]. split; [exact In_|]. split; [apply (pm_ops _ _ _ _ Pm), P|].
  intros i B. rewrite zbit in B by lia. rewrite zbit by lia. lia.
Qed.

(** * Assignments *)
Lemma asg_bits v w a k t i : In a asgs -> round v w -> nth_error (lbits (fa_lhs a)) k = Some (t, i) -> w t i = nth k (eval vz v (fa_rhs a)) vz.
Proof.
  intros Ia [S _] K. destruct (w_lhs _ _ _ _ _ _ Wf a Ia) as (Lv & Tl & _). rewrite <- (S a Ia). destruct (lv_bits vz _ Lv Tl) as (_ & E & _). rewrite E.
  symmetry. apply nth_error_nth. rewrite nth_error_map, K. reflexivity.
Qed.

Lemma one_asg s a : In a asgs -> gok (fb s) -> bvt (fb s) = bvt b1 ->
  exists s', run_asg vz rb h nm ports s a = DOk s' /\ gok (fb s') /\ grow (fb s) (fb s') /\
    forall t i, In (t, i) (lbits (fa_lhs a)) -> Dr (fb s') t i.
Proof.
  intros Ia G Vt. destruct (asg_run vz rb h ports asgs conns a nm (bnext (fb s)) Wf Ia) as (p & q & W & gs & Es & Ex & Si & Fl & Hw & Hg).
  unfold run_asg. rewrite Es, Ex. cbn [dbind]. destruct Si as [Ok Re Ha Dn].
  set (b0 := Bld (fnext (fxs q)) (bnodes (fb s)) (bvt (fb s)) (bdm (fb s)) (bdeps (fb s) ++ fdeps (fxs q)) (bpend (fb s) ++ fpend (fxs q))).
  assert (W0 : grow (fb s) b0).
  { split; cbn; auto using incl_refl.
    - intros x I. apply in_or_app. now left.
    - intros x I. apply in_or_app. now left.
    - destruct Fl as (Fl & _). exact Fl. }
  set (blk := combine (seq 0 (length (adefs (cur q)))) (adefs (cur q))).
  assert (Blk : forall sy d, In (sy, d) blk -> d = defs (cur q) sy).
  { intros sy d I. unfold blk in I. unfold defs. apply In_nth with (d := (0, dm_empty)) in I. destruct I as (k & Lk & E).
    rewrite combine_length, seq_length, Nat.min_id in Lk. rewrite combine_nth in E by (now rewrite seq_length). injection E as E1 E2.
    rewrite seq_nth in E1 by exact Lk. cbn in E1. subst k. now symmetry. }
  destruct (merge_ok nm ports no_width blk b0) as (b2 & E2 & G2 & W2 & D2).
  { exact G. }
  { intros sy d I. rewrite (Blk sy d I). split; [apply (ok_dok _ _ _ (Ok sy))|apply (ok_uns _ _ _ (Ok sy))]. }
  rewrite E2. cbn [dbind]. eexists. split; [reflexivity|]. cbn [fb]. split; [exact G2|]. split; [eapply grow_trans; eauto|].
  intros t i I. apply In_nth_error in I. destruct I as (k & K).
  destruct (Hg k t i K) as (g & A & Ig & Rg & IA & RA & DA). destruct (Dn g Ig) as (n & Ln & N1 & N2).
  specialize (N1 t _ Rg). destruct N1 as (x & l & Ix & Bi & El & In_).
  assert (It : In (t, defs (cur q) t) blk).
  { unfold blk. unfold defs in *. destruct (Nat.lt_ge_cases t (length (adefs (cur q)))) as [L|L].
    - replace (t, nth t (adefs (cur q)) dm_empty) with (nth t (combine (seq 0 (length (adefs (cur q)))) (adefs (cur q))) (0, dm_empty)).
      + apply nth_In. rewrite combine_length, seq_length. lia.
      + rewrite combine_nth by (now rewrite seq_length). rewrite seq_nth by exact L. reflexivity.
    - rewrite nth_overflow in Ix by exact L. destruct Ix. }
  destruct (D2 t _ x l It Ix El) as [D3 D4]. left. exists n. split; [apply D3; auto|].
  destruct (Hw t (ilo x) (ihi x) (ok_in _ _ _ (Ok t) x Ix)) as (pt & aa & cc & Ip & Rp & Ea & Ec & L1 & L2 & L3 & Cut).
  destruct (w_lhs _ _ _ _ _ _ Wf a Ia) as (_ & _ & _ & Idr & _).
  split; [|split; [|pose proof (g_next _ _ W2) as Nx; cbn [bnext b0] in Nx; lia]].
  - destruct Bi as [Bi1 Bi2]. apply (hook_ok b2 n t aa cc i l); auto; [lia| |].
    + intros q' Iq' Eq'. destruct (Idr pt q' Ip Iq') as (lo & hi & x0 & I0 & L0 & L0'); [congruence|]. exists lo, hi, x0. split; [exact I0|lia].
    + unfold b0 in D4. cbn [bvt] in D4. rewrite Vt, Ea, Ec in D4. exact D4.
  - right. exists (fun t' j => In (t', j) A). split.
    + intros v1 w1 v2 w2 S1 S2 U Ag. rewrite (asg_bits v1 w1 a k t i Ia S1 K), (asg_bits v2 w2 a k t i Ia S2 K). apply DA. exact Ag.
    + intros t' j J. left. split.
      * eapply pended_incl; [apply (g_pend _ _ W2)|]. cbn [bpend b0]. eapply pended_incl; [|apply (N2 t' (Z.of_nat j)), RA, J].
        intros z Z. apply in_or_app. now right.
      * intros p0 Ip0. destruct (w_rhs _ _ _ _ _ _ Wf a Ia) as ((_ & Np & _) & _). eapply Np; [apply IA, J|exact Ip0].
Qed.

Lemma all_asgs : forall l s, incl l asgs -> gok (fb s) -> bvt (fb s) = bvt b1 ->
  exists s', run_asgs vz rb h nm ports s l = DOk s' /\ gok (fb s') /\ grow (fb s) (fb s') /\
    forall a t i, In a l -> In (t, i) (lbits (fa_lhs a)) -> Dr (fb s') t i.
Proof.
  induction l as [|a l IH]; intros s Il G Vt; cbn [run_asgs].
  - exists s. split; [reflexivity|]. split; [exact G|]. split; [apply grow_refl|]. intros a t i [].
  - destruct (one_asg s a (Il a (or_introl eq_refl)) G Vt) as (s1 & E1 & G1 & W1 & D1). rewrite E1. cbn [dbind].
    destruct (IH s1) as (s2 & E2 & G2 & W2 & D2); auto.
    { intros x I. apply Il. now right. }
    { rewrite (g_vt _ _ W1). exact Vt. }
    exists s2. split; [exact E2|]. split; [exact G2|]. split; [eapply grow_trans; eauto|].
    intros a' t i [<-|I] J; [eapply Dr_grow; eauto|eapply D2; eauto].
Qed.
End F.
