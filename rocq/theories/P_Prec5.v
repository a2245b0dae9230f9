(** Proofs about whole designs: the netlist joins pieces of which one feeds the other. *)
From Coq Require Import Sorted.
From Verif Require Import Base M_Graph M_Range M_Netlist M_DFS M_Path M_Annot M_Interval M_Heap M_Drivers M_Pending M_DFA M_Builder M_Slice M_Port M_Flow
  S_Graph S_Reach S_Netlist S_Annot S_Interval S_Drivers S_Pending S_DFA S_Builder S_Slice S_Port S_Flow S_Prec
  P_Graph P_DFS P_Path P_Interval P_Heap P_Drivers P_DriversX P_Annot P_Pending P_Pending2 P_DFA P_DFA2 P_Builder P_Slice P_Slice2 P_Port P_Port2 P_Port3 P_Flow P_Flow2 P_Flow3 P_Flow4 P_Flow5 P_Flow6 P_Flow7 P_Flow8
  P_Prec P_Prec2 P_Prec3 P_Prec4 P_AnnotX.

(** * Ports *)
Lemma run_okd W sy : aligned_writes W -> forall cs d, okd W sy d -> (forall b dl m, In (b, dl, m) cs -> inW W sy (lower b) (upper b) /\ dl <> []) ->
  exists d', run_calls d cs = DOk d' /\ okd W sy d' /\
    forall i n, has d' i n -> has d i n \/ exists b dl m, In (b, dl, m) cs /\ bit b i /\ In n dl.
Proof.
  intros Al. induction cs as [|[[b dl] m] cs IH]; intros d Kd H; cbn [run_calls]; [exists d; auto|].
  destruct (H b dl m (or_introl eq_refl)) as [Iw Ne]. destruct (add_okd W sy d b dl m Al Kd Iw Ne) as (d1 & E1 & K1 & H1). rewrite E1. cbn [dbind].
  destruct (IH d1 K1) as (d2 & E2 & K2 & H2); [intros b' dl' m' I; apply (H b' dl' m'); now right|]. exists d2. split; [exact E2|]. split; [exact K2|].
  intros i n Q. destruct (H2 i n Q) as [Q1|(b' & dl' & m' & I & R)]; [|right; exists b', dl', m'; split; [now right|exact R]].
  apply (proj1 (H1 i n)) in Q1. destruct Q1 as [[B [I|[_ Q1]]]|[_ Q1]]; auto. right. exists b, dl, m. split; [now left|auto].
Qed.
Lemma calls_in : forall l n b dl m, In (b, dl, m) (port_calls n l) -> exists lo hi k, b = zrange lo hi /\ dl = [k] /\ m = false /\ In (lo, hi, true) l.
Proof.
  induction l as [|[[lo hi] x] l IH]; intros n b dl m I; cbn [port_calls] in I; [destruct I|]. apply in_app_or in I. destruct I as [I|I].
  - destruct x; [|destruct I]. destruct I as [I|[]]. injection I as <- <- <-. exists lo, hi, n. repeat (split; [reflexivity|]). now left.
  - destruct (IH _ _ _ _ I) as (lo' & hi' & k & E1 & E2 & E3 & J). exists lo', hi', k. repeat (split; [assumption|]). now right.
Qed.
Lemma apart_two l lo hi x lo' hi' x' : ranges_apart l -> In (lo, hi, x) l -> In (lo', hi', x') l -> (lo = lo' /\ hi = hi') \/ hi < lo' \/ hi' < lo.
Proof.
  intros Ra I J. apply in_split in I. destruct I as (u & v & ->). apply in_app_or in J. destruct J as [J|[J|J]].
  - apply in_split in J. destruct J as (u1 & u2 & ->). rewrite <- app_assoc in Ra. cbn [app] in Ra. pose proof (Ra _ _ _ _ _ _ _ _ _ eq_refl). lia.
  - inversion J; auto.
  - apply in_split in J. destruct J as (v1 & v2 & ->). pose proof (Ra _ _ _ _ _ _ _ _ _ eq_refl). lia.
Qed.
Lemma apart_dir l j : ranges_apart l -> in_range l true j -> in_range l false j -> False.
Proof.
  intros Ra (lo & hi & I & L) (lo' & hi' & J & L'). apply in_split in I. destruct I as (u & v & ->). apply in_app_or in J. destruct J as [J|[J|J]]; [|discriminate J|].
  - apply in_split in J. destruct J as (u1 & u2 & ->). rewrite <- app_assoc in Ra. cbn [app] in Ra. pose proof (Ra _ _ _ _ _ _ _ _ _ eq_refl). lia.
  - apply in_split in J. destruct J as (v1 & v2 & ->). pose proof (Ra _ _ _ _ _ _ _ _ _ eq_refl). lia.
Qed.

Record ports_prec (qs : list fport) (b : bld) (W : trace) : Prop := {
  pp_all : forall n, n < bnext b -> exists k, In (n, k) (bnodes b);
  pp_drv : forall sy i n, drives_global (bdm b) sy i n -> exists p lo hi j, In p qs /\ sy = fp_sy p /\ PN b n (fp_id p) lo hi /\ i = Z.of_nat j /\ lo <= j <= hi /\ in_range (fp_drivers p) true j;
  pp_al : aligned_writes W;
  pp_in : within W (flat_map input_bits qs);
  pp_ok : forall sy d, bdm b sy = Some d -> okd W sy d }.

Lemma one_port_s h qs b ops W p b' : sorted_hints h -> ports_made h qs b ops -> ports_prec qs b W -> ~ In (fp_sy p) (map fp_sy qs) ->
  ascending (fp_drivers p) -> ranges_apart (fp_drivers p) -> materializePortNodes h b (fp_id p) (Some (fp_sy p)) (fp_drivers p) = DOk b' ->
  exists W', ports_prec (qs ++ [p]) b' W'.
Proof.
  intros Sh Pm [P1 P2 P3 P4 P5] Ns As Ra E. assert (Shp : forall hs, h (fp_sy p) = Some hs -> StronglySorted lt hs) by (intros hs; apply Sh).
  destruct (flat_ok (h (fp_sy p)) (fp_drivers p) As Ra Shp) as [FS FA]. set (l := flat (h (fp_sy p)) (fp_drivers p)) in *.
  set (sy := fp_sy p) in *. set (cs := port_calls (bnext b) l). set (T := map (fun c : call => (0, sy, fst (fst c))) cs : trace).
  assert (InT : forall t x y, inW T t x y -> t = sy /\ exists lo hi, x = Z.of_nat lo /\ y = Z.of_nat hi /\ lo <= hi /\ In (lo, hi, true) l).
  { intros t x y (k & r & I & E1 & E2). unfold T in I. apply in_map_iff in I. destruct I as ([[r' dl] m] & Q & I). cbn in Q. injection Q as <- <- <-.
    destruct (calls_in _ _ _ _ _ I) as (lo & hi & k' & -> & _ & _ & J). assert (L : lo <= hi) by (eapply FS; eauto). destruct (zlu lo hi L) as [Z1 Z2].
    split; [reflexivity|]. exists lo, hi. split; [congruence|]. split; [congruence|]. auto. }
  assert (Sub : forall lo hi x, In (lo, hi, x) l -> exists a c, In (a, c, x) (fp_drivers p) /\ a <= lo /\ hi <= c).
  { intros lo hi x I. apply in_flat in I. destruct I as (a & c & I & J). destruct (segments_spec (h (fp_sy p)) a c (As _ _ _ I) Shp) as (_ & Bd & _).
    specialize (Bd _ J). cbn in Bd. exists a, c. split; [exact I|lia]. }
  assert (AlT : aligned_writes T).
  { intros k t r k' r' I I'. destruct (InT t (lower r) (upper r)) as (_ & lo & hi & E1 & E2 & L & J); [exists k, r; auto|].
    destruct (InT t (lower r') (upper r')) as (_ & lo' & hi' & E1' & E2' & L' & J'); [exists k', r'; auto|].
    destruct (apart_two l _ _ _ _ _ _ FA J J') as [[-> ->]|[Q|Q]]; lia. }
  assert (WiT : within T (input_bits p)).
  { intros t x y i I L. destruct (InT t x y I) as (-> & lo & hi & -> & -> & Lh & J). exists (Z.to_nat i). split; [lia|].
    apply (proj2 (input_bits_in (fun _ => []) p _)). destruct (Sub _ _ _ J) as (a & c & K & L1 & L2). exists a, c. split; [exact K|lia]. }
  assert (Nn : bdm b sy = None) by (apply (pm_other _ _ _ _ Pm); exact Ns).
  assert (D0 : dmof b sy = dm_empty) by (unfold dmof; now rewrite Nn).
  destruct (run_okd T sy AlT cs dm_empty (okd_empty T sy)) as (d & Rc & Kd & Hd).
  { intros r dl m I. destruct (calls_in _ _ _ _ _ I) as (lo & hi & k & -> & -> & -> & J). split; [|discriminate].
    exists 0, (zrange lo hi). split; [|auto]. unfold T. apply in_map_iff. eexists. split; [|exact I]. reflexivity. }
  rewrite <- D0 in Rc. destruct (make_all_fields (fp_id p) sy l b d Rc) as (b2 & E2 & F1 & F2 & F3 & F4 & F5 & _).
  cbn [materializePortNodes] in E. rewrite make_drivers_all in E. fold sy l in E. rewrite E2 in E. injection E as ->.
  assert (Dd : forall d', bdm b' sy = Some d' -> d' = d) by (intros d' Q; unfold dmof in F4; now rewrite Q in F4).
  exists (W ++ T). split.
  - intros n Ln. destruct (Nat.lt_ge_cases n (bnext b)) as [L|L].
    + destruct (P1 n L) as (k & I). exists k. rewrite F2. apply in_or_app. now left.
    + assert (I : In n (map snd (port_ops (fp_id p) (bnext b) l))) by (rewrite ops_ids; apply in_seq; lia). apply in_map_iff in I. destruct I as (o & <- & I).
      eexists. rewrite F2. apply in_or_app. right. apply in_map_iff. exists o. split; [reflexivity|exact I].
  - intros sy' i n G. destruct (Nat.eq_dec sy' sy) as [->|Ne].
    + destruct G as (d' & Q & Dr). rewrite (Dd d' Q) in Dr. apply drives_live in Dr. destruct (Hd i n Dr) as [(x & r & [] & _)|(r & dl & m & I & B & In_)].
      destruct (calls_in _ _ _ _ _ I) as (lo & hi & k & -> & -> & -> & J). destruct In_ as [->|[]]. assert (L : lo <= hi) by (eapply FS; eauto). rewrite zbit in B by exact L.
      destruct (calls_ops (fp_id p) n lo hi _ _ I) as (O & _). exists p, lo, hi, (Z.to_nat i). split; [apply in_or_app; right; now left|]. split; [reflexivity|].
      split; [unfold PN; rewrite F2; apply in_or_app; right; apply in_map_iff; eexists; split; [|exact O]; reflexivity|]. split; [lia|]. split; [lia|].
      destruct (Sub _ _ _ J) as (a & c & K & L1 & L2). exists a, c. split; [exact K|lia].
    + destruct G as (d' & Q & Dr). rewrite F5 in Q by exact Ne. destruct (P2 sy' i n) as (q & lo & hi & j & I & Es & N & R); [exists d'; auto|].
      exists q, lo, hi, j. split; [apply in_or_app; now left|]. split; [exact Es|]. split; [unfold PN; rewrite F2; apply in_or_app; now left|exact R].
  - eapply aligned_app; eauto. intros [t j] I J. apply in_flat_map in I. destruct I as (q & Iq & I). apply Ns.
    assert (Q : forall r, In (t, j) (input_bits r) -> t = fp_sy r).
    { intros r K. unfold input_bits in K. apply in_flat_map in K. destruct K as ([[lo hi] x] & _ & K). destruct x; [|destruct K]. apply in_map_iff in K. destruct K as (k & K & _). congruence. }
    change sy with (fp_sy p). rewrite <- (Q p J), (Q q I). now apply in_map.
  - rewrite flat_map_app. cbn [flat_map]. rewrite app_nil_r. now apply within_app.
  - intros sy' d' Q. destruct (Nat.eq_dec sy' sy) as [->|Ne].
    + rewrite (Dd d' Q). destruct Kd as [K1 K2 K3 K4]. split; auto. intros x I. apply inW_app. right. auto.
    + rewrite F5 in Q by exact Ne. now apply okd_app, P5.
Qed.
Lemma all_ports_s h : sorted_hints h -> forall ps qs b ops W, ports_made h qs b ops -> ports_prec qs b W -> NoDup (map fp_id (qs ++ ps)) -> NoDup (map fp_sy (qs ++ ps)) ->
  (forall p, In p ps -> ascending (fp_drivers p) /\ ranges_apart (fp_drivers p)) ->
  exists b' ops' W', make_all_ports h b ps = DOk b' /\ ports_made h (qs ++ ps) b' ops' /\ ports_prec (qs ++ ps) b' W' /\ bdeps b' = bdeps b /\ bpend b' = bpend b.
Proof.
  intros Sh. induction ps as [|p ps IH]; intros qs b ops W M Pp Ni Ns D; cbn [make_all_ports].
  - exists b, ops, W. rewrite app_nil_r. auto.
  - destruct (D p (or_introl eq_refl)) as [As Ra].
    assert (Ns1 : ~ In (fp_sy p) (map fp_sy qs)) by (rewrite map_app in Ns; apply NoDup_remove_2 in Ns; intros I; apply Ns, in_or_app; now left).
    destruct (one_port h Sh qs b ops p M) as (b1 & ops1 & E & M1 & B1 & B2); auto.
    { rewrite map_app in Ni. apply NoDup_remove_2 in Ni. intros I. apply Ni, in_or_app. now left. }
    destruct (one_port_s h qs b ops W p b1 Sh M Pp Ns1 As Ra E) as (W1 & Pp1).
    rewrite E. cbn [dbind]. destruct (IH (qs ++ [p]) b1 ops1 W1 M1 Pp1) as (b2 & ops2 & W2 & E2 & M2 & Pp2 & C1 & C2).
    + now rewrite <- app_assoc.
    + now rewrite <- app_assoc.
    + intros q I. apply D. now right.
    + rewrite <- app_assoc in M2, Pp2. exists b2, ops2, W2. split; [exact E2|]. split; [exact M2|]. split; [exact Pp2|]. split; congruence.
Qed.
Lemma ports_prec_start : ports_prec [] bempty [].
Proof.
  split; cbn.
  - intros n L. lia.
  - intros sy i n (d & Q & _). discriminate.
  - intros l sy b l' b' [].
  - intros t lo hi i (k & r & [] & _).
  - intros sy d Q. discriminate.
Qed.

Section F.
Context {V : Type}.
Variable vz : V.
Variable rb : bool.
Variable h : hints.
Variable nm : nat -> str.
Variable ports : list fport.
Variable conns : list (fconn V).
Variable asgs : list (fasg V).
Hypothesis Wf : wf_design vz rb h ports conns asgs.
Hypothesis One : one_driver ports conns asgs.
Hypothesis Npn : no_port_names ports asgs.
Notation item := (item V).
Notation writes := (item_writes rb conns).
Notation rds := (item_reads vz rb conns).
Notation Feeds := (Feeds vz rb conns).
Notation valid := (valid_item vz rb ports asgs).

Lemma ports_sound b1 ops W : ports_made h ports b1 ops -> ports_prec ports b1 W -> bdeps b1 = [] -> bpend b1 = [] ->
  exists role, sound vz rb nm ports conns asgs b1 (FL b1 []) role W (flat_map input_bits ports) /\ all_done vz rb ports b1 b1 role [].
Proof.
  intros Pm [P1 P2 P3 P4 P5] Ed Ep.
  assert (Ch : forall n, n < bnext b1 -> exists x : item, exists p lo hi, x = XPort p lo hi /\ In p ports /\ PN b1 n (fp_id p) lo hi).
  { intros n L. destruct (P1 n L) as (k & I). destruct (pm_nodes _ _ _ _ Pm _ _ I) as (p & lo & hi & a & c & x & Ip & -> & _). exists (XPort p lo hi), p, lo, hi. auto. }
  apply (finite_choice XConst) in Ch. destruct Ch as (role & Ch).
  assert (R : forall n p lo hi, In p ports -> PN b1 n (fp_id p) lo hi -> n < bnext b1 /\ role n = XPort p lo hi).
  { intros n p lo hi Ip N. pose proof (pm_ids _ _ _ _ Pm _ _ N) as L. split; [exact L|]. destruct (Ch n L) as (q & lo' & hi' & -> & Iq & N').
    pose proof (pm_uniq _ _ _ _ Pm _ _ _ N N') as Q. injection Q as Q1 Q2 Q3. assert (q = p) by (eapply same_id; eauto). subst q. f_equal; lia. }
  exists role. split.
  2: { intros n L. destruct (Ch n L) as (p & lo & hi & Rn & Ip & N). split; rewrite Rn.
    - intros q a c [= <- <- <-]. exact N.
    - intros t j [(-> & Lj & Ir)|(c & k & [] & _)]. split; [now apply (pm_input _ _ _ _ Pm p n lo hi j)|].
      intros q pn a c Iq Eq Nq La. left. assert (q = p) by (eapply same_sy; eauto). now subst q.
    - intros t j [H|(c & k & [] & _)]. right. exact H.
    - intros (c & k & [] & _). }
  split; cbn [fb fns].
  - reflexivity.
  - exact R.
  - intros n L. destruct (Ch n L) as (p & lo & hi & -> & Ip & N). destruct (pm_nodes _ _ _ _ Pm _ _ N) as (q & lo' & hi' & a & c & x & Iq & Ek & Id & L1 & L2 & _).
    injection Ek as E1 E2 E3. assert (q = p) by (eapply same_id; eauto). subst q. split; [exact Ip|]. split; [lia|]. exists a, c, x. split; [exact Id|lia].
  - intros n k I. pose proof (pm_ids _ _ _ _ Pm _ _ I) as L. split; [exact L|]. destruct (pm_nodes _ _ _ _ Pm _ _ I) as (p & lo & hi & a & c & x & Ip & -> & _).
    exists p, lo, hi. split; [now apply R|auto].
  - intros n k [].
  - intros n L. left. auto.
  - rewrite Ed. intros d [].
  - rewrite Ep. intros p [].
  - exact P3.
  - exact P4.
  - exact P5.
  - intros sy i n G. destruct (P2 sy i n G) as (p & lo & hi & j & Ip & -> & N & -> & L & Ir). exists j. split; [reflexivity|]. destruct (R n p lo hi Ip N) as [Ln ->].
    split; [exact Ln|]. left. auto.
Qed.

Lemma connect_nodes : forall cs b b', connect_all vz rb nm ports b cs = DOk b' -> forall n p r, In (n, BPort p r) (bnodes b') -> In (n, BPort p r) (bnodes b).
Proof.
  assert (Aa : forall l b b', apply_acts (V := V) variables nm (port_refs ports) no_modports b l = DOk b' -> forall n p r, In (n, BPort p r) (bnodes b') -> In (n, BPort p r) (bnodes b)).
  { induction l as [|a l IH]; intros b b' E n p r I; cbn [apply_acts] in E; [now injection E as <-|].
    destruct (apply_act variables nm (port_refs ports) no_modports b a) as [b2|] eqn:Ea; [|discriminate]. cbn [dbind] in E. specialize (IH _ _ E n p r I).
    destruct a as [sy lo hi m|sy lo hi m|v ms]; cbn [apply_act] in Ea.
    - unfold baddDrivers in Ea. destruct (addDrivers _ (zrange lo hi) [m] true); [|discriminate]. cbn [dbind] in Ea. injection Ea as <-. exact IH.
    - injection Ea as <-. exact IH.
    - injection Ea as <-. cbn [bnodes] in IH. apply in_app_or in IH. destruct IH as [J|[J|[]]]; [exact J|discriminate J]. }
  induction cs as [|c cs IH]; intros b b' E n p r I; cbn [connect_all] in E; [now injection E as <-|]. unfold connect in E.
  destruct (handlePortConnection _ _ _ _ _ _ _ _) as [l|]; [|discriminate].
  destruct (apply_acts variables nm (port_refs ports) no_modports b l) as [b2|] eqn:Ea; [|discriminate]. cbn [dbind] in E. eapply Aa; [exact Ea|]. eapply IH; eauto.
Qed.
Definition one_writer (s : fl) (role : nat -> item) : Prop := rb = true -> forall n n' t j, n < bnext (fb s) -> n' < bnext (fb s) -> writes (role n) t j -> writes (role n') t j -> n = n'.
Lemma nodup_flat {A B} (f : A -> list B) l : NoDup (flat_map f l) -> forall x y k k' b, In x l -> In y l -> nth_error (f x) k = Some b -> nth_error (f y) k' = Some b -> x = y /\ k = k'.
Proof.
  induction l as [|z l IH]; intros Nd x y k k' b Ix Iy Ex Ey; [destruct Ix|]. cbn [flat_map] in Nd. destruct (nodup_split _ _ Nd) as (N1 & N2 & N3).
  assert (No : forall v i, In v l -> nth_error (f z) i = Some b -> forall j, nth_error (f v) j = Some b -> False).
  { intros v i Iv E1 j E2. apply (N3 b); [eapply nth_error_In; eauto|]. apply in_flat_map. exists v. split; [exact Iv|eapply nth_error_In; eauto]. }
  destruct Ix as [<-|Ix]; destruct Iy as [<-|Iy].
  - split; [reflexivity|]. eapply (proj1 (NoDup_nth_error (f z)) N1); [|congruence]. apply nth_error_Some. congruence.
  - exfalso. eapply No; eauto.
  - exfalso. eapply No; eauto.
  - eapply IH; eauto.
Qed.
Lemma same_sy p q : In p ports -> In q ports -> fp_sy p = fp_sy q -> p = q.
Proof.
  pose proof (w_syms _ _ _ _ _ _ Wf) as Nd. revert Nd. generalize ports as l. induction l as [|z l IH]; intros Nd Ip Iq E; [destruct Ip|]. cbn [map] in Nd. inversion Nd as [|? ? H1 H2]; subst.
  destruct Ip as [<-|Ip]; destruct Iq as [<-|Iq]; auto; exfalso; apply H1; [rewrite E|rewrite <- E]; now apply in_map.
Qed.
Lemma writers_one b1 ops s role W D : ports_made h ports b1 ops -> sound vz rb nm ports conns asgs b1 s role W D -> lone rb conns (fb s) role asgs ->
  (forall n p r, In (n, BPort p r) (bnodes (fb s)) -> In (n, BPort p r) (bnodes b1)) -> one_writer s role.
Proof.
  intros Pm So Lo Back Rb n n' t j Ln Ln' Wn Wn'.
  destruct (nodup_split _ _ One) as (_ & Nd2 & Nd3). destruct (nodup_split _ _ Nd2) as (Nd4 & _ & Nd6).
  pose proof (s_valid _ _ _ _ _ _ _ _ _ _ _ So n Ln) as Vn. pose proof (s_valid _ _ _ _ _ _ _ _ _ _ _ So n' Ln') as Vn'.
  assert (Ptn : forall m p lo hi, m < bnext (fb s) -> role m = XPort p lo hi -> In p ports -> In (m, BPort (fp_id p) (zrange lo hi)) (bnodes b1)).
  { intros m p lo hi Lm R Ip. apply Back. destruct (s_all _ _ _ _ _ _ _ _ _ _ _ So m Lm) as [(k & I)|(k & I)].
    - destruct (s_bn _ _ _ _ _ _ _ _ _ _ _ So m k I) as [_ H]. destruct k as [q r| | |]; try contradiction; [|congruence]. destruct H as (q' & lo' & hi' & E & -> & ->). rewrite R in E. injection E as <- <- <-. exact I.
    - destruct (s_fn _ _ _ _ _ _ _ _ _ _ _ So m k I) as [_ H]. destruct k; try contradiction; [destruct H as (a & x & y & E)|]; congruence. }
  assert (Same : forall p lo hi lo' hi' k, role n = XPort p lo hi -> role n' = XPort p lo' hi' -> In p ports -> lo <= k <= hi -> lo' <= k <= hi' -> n = n').
  { intros p lo hi lo' hi' k R R' Ip L L'. pose proof (Ptn n p lo hi Ln R Ip) as I. pose proof (Ptn n' p lo' hi' Ln' R' Ip) as I'.
    apply (pm_ops _ _ _ _ Pm) in I, I'. apply in_split in I. destruct I as (u & v & E). pose proof (pm_apart _ _ _ _ Pm) as Ap.
    assert (B : bit (zrange lo hi) (Z.of_nat k)) by (apply zbit; lia). assert (B' : bit (zrange lo' hi') (Z.of_nat k)) by (apply zbit; lia).
    rewrite E in I'. apply in_app_or in I'. destruct I' as [I'|[I'|I']].
    - exfalso. apply in_split in I'. destruct I' as (u1 & u2 & ->). rewrite <- app_assoc in E. cbn [app] in E. exact (Ap _ _ _ _ _ _ _ _ E _ (conj B' B)).
    - now injection I'.
    - exfalso. apply in_split in I'. destruct I' as (v1 & v2 & ->). exact (Ap _ _ _ _ _ _ _ _ E _ (conj B B')). }
  assert (Out : forall c k, In c conns -> fc_out c = true -> nth_error (lbits (fc_actual c)) k = Some (t, j) -> nth_error (output_bits c) k = Some (t, j)) by (intros c k _ Oc K; unfold output_bits; now rewrite Oc).
  assert (InO : forall c k, In c conns -> fc_out c = true -> nth_error (lbits (fc_actual c)) k = Some (t, j) -> In (t, j) (flat_map output_bits conns)).
  { intros c k Ic Oc K. apply in_flat_map. exists c. split; [exact Ic|]. eapply nth_error_In. eauto. }
  assert (InI : forall p, In p ports -> t = fp_sy p -> in_range (fp_drivers p) true j -> In (t, j) (flat_map input_bits ports)).
  { intros p Ip -> Ir. apply in_flat_map. exists p. split; [exact Ip|]. now apply (proj2 (input_bits_in nm p j)). }
  assert (InA : forall a k, In a asgs -> nth_error (lbits (fa_lhs a)) k = Some (t, j) -> In (t, j) (flat_map (fun a => lbits (fa_lhs a)) asgs)).
  { intros a k Ia K. apply in_flat_map. exists a. split; [exact Ia|]. eapply nth_error_In. eauto. }
  assert (PA : forall m m' p lo hi a lo' hi', role m = XPort p lo hi -> role m' = XAsg a lo' hi' -> In p ports -> In a asgs -> writes (role m) t j -> writes (role m') t j -> False).
  { intros m m' p lo hi a lo' hi' R R' Ip Ia W1 W2. rewrite R in W1. rewrite R' in W2. destruct W2 as (k & _ & K). pose proof (InA a k Ia K) as J.
    destruct W1 as [(E & _ & Ir)|(c & k' & Ic & Oc & _ & _ & K')].
    - apply (Nd3 (t, j) (InI p Ip E Ir)). apply in_or_app. now right.
    - apply (Nd6 (t, j) (InO c k' Ic Oc K')). exact J. }
  destruct (role n) as [p lo hi|a lo hi|] eqn:R; destruct (role n') as [p' lo' hi'|a' lo' hi'|] eqn:R'; try (destruct Wn; fail); try (destruct Wn'; fail).
  - destruct Vn as (Ip & _), Vn' as (Ip' & _). destruct Wn as [(E & L & Ir)|(c & k & Ic & Oc & Pc & At & K)]; destruct Wn' as [(E' & L' & Ir')|(c' & k' & Ic' & Oc' & Pc' & At' & K')].
    + assert (p = p') by (apply same_sy; congruence). subst p'. exact (Same p lo hi lo' hi' j eq_refl eq_refl Ip L L').
    + exfalso. apply (Nd3 (t, j) (InI p Ip E Ir)). apply in_or_app. left. eauto.
    + exfalso. apply (Nd3 (t, j) (InI p' Ip' E' Ir')). apply in_or_app. left. eauto.
    + destruct (nodup_flat _ _ Nd4 c c' k k' (t, j) Ic Ic' (Out c k Ic Oc K) (Out c' k' Ic' Oc' K')) as [<- <-].
      assert (p = p') by (apply (same_id vz rb h ports conns asgs Wf); congruence). subst p'. exact (Same p lo hi lo' hi' k eq_refl eq_refl Ip (At Rb) (At' Rb)).
  - exfalso. destruct Vn as (Ip & _), Vn' as (Ia & _). refine (PA n n' _ _ _ _ _ _ R R' Ip Ia _ _); [now rewrite R|now rewrite R'].
  - exfalso. destruct Vn as (Ia & _), Vn' as (Ip & _). refine (PA n' n _ _ _ _ _ _ R' R Ip Ia _ _); [now rewrite R'|now rewrite R].
  - refine (proj2 (Lo n a lo hi Ln R) n' a' lo' hi' t j Ln' R' _ _); [now rewrite R|now rewrite R'].
Qed.
Lemma built_sound_d : exists b1 ops s role W D, flow_state vz rb h nm ports conns asgs = DOk s /\ ports_made h ports b1 ops /\
  sound vz rb nm ports conns asgs b1 s role W D /\ all_done vz rb ports b1 (fb s) role conns /\ covered (fb s) role asgs /\ incl D (all_driven ports conns asgs) /\ one_writer s role.
Proof.
  destruct (all_ports_s h (w_hints _ _ _ _ _ _ Wf) ports [] bempty [] [] (ports_start h) ports_prec_start) as (b1 & ops & W1 & E1 & Pm & Pp & Ed & Ep); cbn [app].
  { apply (w_ids _ _ _ _ _ _ Wf). }
  { apply (w_syms _ _ _ _ _ _ Wf). }
  { apply (w_drivers _ _ _ _ _ _ Wf). }
  cbn [app] in Pm, Pp. destruct (ports_sound b1 ops W1 Pm Pp Ed Ep) as (role1 & So1 & Dn1).
  pose proof One as One'. unfold one_driver, all_driven in One'. rewrite app_assoc in One'. destruct (nodup_split _ _ One') as (Nd1 & _).
  destruct (conns_s vz rb h nm ports conns asgs Wf One b1 ops Pm [] conns b1 role1 W1 _ [] (incl_refl _) So1 Dn1 (le_n _) Nd1) as (b2 & role2 & W2 & E2 & So2 & Dn2 & _).
  assert (Lo2 : lone rb conns (fb (FL b2 [])) role2 []).
  { intros n x lo hi L R. exfalso. destruct (s_all _ _ _ _ _ _ _ _ _ _ _ So2 n L) as [(k & I)|(k & [])]. destruct (s_bn _ _ _ _ _ _ _ _ _ _ _ So2 n k I) as [_ H].
    destruct k; try contradiction; [destruct H as (q & lo' & hi' & E & _)|]; congruence. }
  destruct (asgs_s vz rb h nm ports conns asgs Wf One Npn b1 ops Pm asgs (FL b2 []) role2 W2 _ [] (incl_refl _) So2 Dn2 ltac:(intros a k []) Lo2 One' ltac:(intros x [])) as (s & role & W & D & E3 & So3 & Dn3 & Cv & Id & Lo & Bn).
  assert (Ow : one_writer s role).
  { refine (writers_one b1 ops s role W D Pm So3 Lo _). intros n p r. rewrite Bn. cbn [fb]. eapply connect_nodes; eauto. }
  rewrite <- app_assoc in Id. exists b1, ops, s, role, W, D. unfold flow_state. rewrite E1. cbn [dbind]. rewrite E2. cbn [dbind]. auto 10.
Qed.
Lemma built_sound : exists b1 ops s role W D, flow_state vz rb h nm ports conns asgs = DOk s /\ ports_made h ports b1 ops /\
  sound vz rb nm ports conns asgs b1 s role W D /\ all_done vz rb ports b1 (fb s) role conns /\ covered (fb s) role asgs /\ one_writer s role.
Proof. destruct built_sound_d as (b1 & ops & s & role & W & D & A & B & C & E & F & _ & G). exists b1, ops, s, role, W, D. auto 10. Qed.

(** * Emission *)
Notation sound := (sound vz rb nm ports conns asgs).
Notation dep_ok := (dep_ok vz rb nm conns).
Lemma emitted b1 ops s role W D ds d : ports_made h ports b1 ops -> sound b1 s role W D ->
  emit_all (bvt (fb s)) (bdm (fb s)) (bpend (fb s)) = DOk ds -> In d ds ->
  dsrc d < bnext (fb s) /\ dtgt d < bnext (fb s) /\ dep_ok role d.
Proof.
  intros Pm So Em I. destruct (emit_all_in _ _ _ _ _ Em I) as (p & l & Ip & E & Id). destruct (s_pend _ _ _ _ _ _ _ _ _ _ _ So p Ip) as (Np & Rf & Kd & n & Pn & Ln & Rd).
  unfold emitEdgesFor in E. rewrite Pn in E. unfold vt_lookup in E. rewrite (s_vt _ _ _ _ _ _ _ _ _ _ _ So), (no_entry h ports b1 ops Pm _ Np) in E.
  destruct (bdm (fb s) (psym p)) as [dm|] eqn:Dm; [|injection E as <-; destruct Id].
  destruct (s_dm _ _ _ _ _ _ _ _ _ _ _ So _ _ Dm) as [K1 K2 K3 K4]. unfold forEachDriverInterval, dm_find in E.
  destruct (each_interval_spec dm (proj1 K2) (ivfind (fst (toPair (pbounds p))) (snd (toPair (pbounds p))) (ivs dm))) as (out & Eo & Sp).
  { intros y J. now apply in_ivfind in J. }
  rewrite Eo in E. cbn [dbind] in E. injection E as <-. apply in_flat_map in Id. destruct Id as ([r dl] & Io & Id). cbn [fst snd] in Id.
  apply Sp in Io. destruct Io as (x & Ix & -> & El). apply in_ivfind in Ix. destruct Ix as [Ix _].
  pose proof (inter_bits (Range (ilo x) (ihi x)) (pbounds p)) as Ib. destruct (intersection (Range (ilo x) (ihi x)) (pbounds p)) as [eb|]; [|destruct Id].
  apply in_map_iff in Id. destruct Id as (m & <- & Im). cbn [dsrc dtgt dep_ok].
  assert (Lx : (ilo x <= ihi x)%Z) by (destruct K1 as [Dw _]; apply wf_spec in Dw; now apply Dw).
  assert (Bt : forall i, bit_in eb i -> exists j, i = Z.of_nat j /\ m < bnext (fb s) /\ writes (role m) (psym p) j /\ rds (role n) (psym p) j).
  { intros i B0. apply Ib in B0. destruct B0 as [Bx Bp]. unfold bit_in, lower, upper in Bx. cbn [rleft rright] in Bx.
    destruct (s_drv _ _ _ _ _ _ _ _ _ _ _ So (psym p) i m) as (j & Ej & Lm & Wj).
    { exists dm. split; [exact Dm|]. apply drives_live. exists x, dl. split; [exact Ix|]. split; [unfold S_Interval.inside, inside; lia|auto]. }
    destruct (Rd i Bp) as (j' & Ej' & Rj). assert (j' = j) by lia. subst j'. exists j. auto. }
  destruct (Bt (lower eb)) as (_ & _ & Lm & _); [unfold bit_in; pose proof (lower_upper eb); lia|].
  split; [exact Lm|]. split; [exact Ln|]. split; [exact Kd|]. exists (psym p). split; [now rewrite Rf|].
  intros i B. destruct (Bt i) as (j & Ej & _ & H); [unfold bit_in; now apply bit_lu|]. exists j. split; [exact Ej|exact H].
Qed.
(** Every bit that a piece reads is joined to its driver. *)
Lemma emitted_all b1 ops s role W D ds a b t j : ports_made h ports b1 ops -> sound b1 s role W D -> all_done vz rb ports b1 (fb s) role conns ->
  emit_all (bvt (fb s)) (bdm (fb s)) (bpend (fb s)) = DOk ds -> a < bnext (fb s) -> b < bnext (fb s) ->
  writes (role a) t j -> rds (role b) t j -> exists d, In d (bdeps (fb s) ++ ds) /\ dsrc d = a /\ dtgt d = b /\ has_bit d (Z.of_nat j).
Proof.
  intros Pm So Dn Em La Lb Wj Rj. destruct (dn_w _ _ _ _ _ _ _ _ (Dn a La) t j Wj) as [Dg Hk]. destruct (dn_r _ _ _ _ _ _ _ _ (Dn b Lb) t j Rj) as [Pe|Ow].
  - destruct Pe as (p & Ip & <- & Pn & B). destruct (s_pend _ _ _ _ _ _ _ _ _ _ _ So p Ip) as (Np & _). destruct (emit_all_has _ _ _ _ _ Em Ip) as (l & E & Il).
    assert (V0 : bvt (fb s) (psym p) = None) by (rewrite (s_vt _ _ _ _ _ _ _ _ _ _ _ So); now apply (no_entry h ports b1 ops Pm)).
    assert (Gk : forall d, bdm (fb s) (psym p) = Some d -> dok d /\ allvalid d).
    { intros d Q. pose proof (s_dm _ _ _ _ _ _ _ _ _ _ _ So _ d Q) as K. split; [exact (ok_dok _ _ _ K)|exact (proj1 (ok_uns _ _ _ K))]. }
    destruct (emit_drivers _ _ p b (Z.of_nat j) a l Pn V0 Gk E B Dg) as (e & Ie & E1 & E2 & E3).
    exists e. split; [apply in_or_app; right; now apply Il|auto].
  - destruct (role b) as [p lo hi|x lo hi|] eqn:Rb; cbn [own] in Ow; try contradiction. destruct Ow as (-> & Lj & Ir).
    pose proof (dn_port _ _ _ _ _ _ _ _ (Dn b Lb) p lo hi Rb) as N. pose proof (s_valid _ _ _ _ _ _ _ _ _ _ _ So b Lb) as Vb. rewrite Rb in Vb. destruct Vb as (Ip & _).
    destruct (Hk p b lo hi Ip eq_refl N Lj) as [It|(e & Ie & E1 & E2 & E3)].
    + destruct (w_drivers _ _ _ _ _ _ Wf p Ip) as [_ Ra]. destruct (apart_dir _ _ Ra It Ir).
    + exists e. split; [apply in_or_app; now left|auto].
Qed.
Lemma emit_ok b1 ops s role W D : ports_made h ports b1 ops -> sound b1 s role W D -> exists ds, emit_all (bvt (fb s)) (bdm (fb s)) (bpend (fb s)) = DOk ds.
Proof.
  intros Pm So. assert (H : forall p, In p (bpend (fb s)) -> exists l, emitEdgesFor (bvt (fb s)) (bdm (fb s)) p = DOk l).
  { intros p Ip. destruct (s_pend _ _ _ _ _ _ _ _ _ _ _ So p Ip) as (Np & Rf & Kd & n & Pn & Ln & Rd).
    unfold emitEdgesFor. rewrite Pn. unfold vt_lookup. rewrite (s_vt _ _ _ _ _ _ _ _ _ _ _ So), (no_entry h ports b1 ops Pm _ Np).
    destruct (bdm (fb s) (psym p)) as [dm|] eqn:Dm; [|eauto]. destruct (s_dm _ _ _ _ _ _ _ _ _ _ _ So _ _ Dm) as [K1 K2 K3 K4]. unfold forEachDriverInterval, dm_find.
    destruct (each_interval_spec dm (proj1 K2) (ivfind (fst (toPair (pbounds p))) (snd (toPair (pbounds p))) (ivs dm))) as (out & Eo & Sp).
    { intros y J. now apply in_ivfind in J. }
    rewrite Eo. cbn [dbind]. eauto. }
  revert H. generalize (bpend (fb s)) as q. induction q as [|p q IH]; intros H; cbn [emit_all]; [eauto|].
  destruct (H p (or_introl eq_refl)) as (l & ->). destruct IH as (m & ->); [intros x I; apply H; now right|]. cbn [dbind]. eauto.
Qed.

Lemma stands_kind b1 s role W D n : sound b1 s role W D -> n < bnext (fb s) ->
  nkind (node_info s n) = item_kind (role n) /\
  (forall p lo hi, role n = XPort p lo hi -> nbounds (node_info s n) = Some (zrange lo hi)) /\
  ((forall p lo hi, role n <> XPort p lo hi) -> nbounds (node_info s n) = None) /\
  forall p lo hi, In p ports -> (role n = XPort p lo hi <-> In (n, BPort (fp_id p) (zrange lo hi)) (bnodes (fb s))).
Proof.
  intros [A1 A2 A3 A4 A5 A6 A7 A8 A9 A10 A11 A12] L.
  assert (N1 : forall l m (k : bnode), find (fun x => Nat.eqb (fst x) n) l = Some (m, k) -> In (n, k) l).
  { intros l m k F. apply find_some in F. destruct F as [I E]. cbn in E. apply Nat.eqb_eq in E. now subst m. }
  assert (N2 : forall l m (k : nk), find (fun x => Nat.eqb (fst x) n) l = Some (m, k) -> In (n, k) l).
  { intros l m k F. apply find_some in F. destruct F as [I E]. cbn in E. apply Nat.eqb_eq in E. now subst m. }
  assert (Pt : forall p lo hi, In p ports -> (role n = XPort p lo hi <-> In (n, BPort (fp_id p) (zrange lo hi)) (bnodes (fb s)))).
  { intros p lo hi Ip. split.
    - intros R. destruct (A6 n L) as [(k & I)|(k & I)].
      + destruct (A4 n k I) as [_ H]. destruct k as [q r| | |]; try contradiction; [|congruence]. destruct H as (q' & lo' & hi' & E & -> & ->). rewrite R in E. injection E as <- <- <-. exact I.
      + destruct (A5 n k I) as [_ H]. destruct k; try contradiction; [destruct H as (a & x & y & E)|]; congruence.
    - intros I. destruct (A4 n _ I) as [_ (q & lo' & hi' & E & Ei & Ez)]. rewrite E. apply zrange_inj in Ez. destruct Ez as [-> ->].
      pose proof (A3 n L) as Vn. rewrite E in Vn. destruct Vn as (Iq & _). assert (q = p) by (eapply same_id; eauto). now subst q. }
  split; [|split; [|split; [|exact Pt]]]; unfold node_info.
  - destruct (find _ (bnodes (fb s))) as [[m k]|] eqn:F1.
    + destruct (A4 n k (N1 _ _ _ F1)) as [_ H]. destruct k; try contradiction; [destruct H as (q & lo & hi & -> & _)|rewrite H]; reflexivity.
    + destruct (A6 n L) as [(k & I)|(k & I)]; [exfalso; apply (find_none _ _ F1) in I; cbn in I; now rewrite Nat.eqb_refl in I|].
      destruct (find _ (fns s)) as [[m k']|] eqn:F2; [|exfalso; apply (find_none _ _ F2) in I; cbn in I; now rewrite Nat.eqb_refl in I].
      destruct (A5 n k' (N2 _ _ _ F2)) as [_ H]. destruct k'; try contradiction; [destruct H as (a & lo & hi & ->)|rewrite H]; reflexivity.
  - intros p lo hi R. pose proof (A3 n L) as Vn. rewrite R in Vn. destruct Vn as (Ip & _). pose proof (proj1 (Pt p lo hi Ip) R) as I.
    destruct (find _ (bnodes (fb s))) as [[m k]|] eqn:F1; [|exfalso; apply (find_none _ _ F1) in I; cbn in I; now rewrite Nat.eqb_refl in I].
    destruct (A4 n k (N1 _ _ _ F1)) as [_ H]. destruct k; try contradiction; [destruct H as (q & lo' & hi' & E & _ & ->)|congruence]. rewrite R in E. injection E as <- <- <-. reflexivity.
  - intros Np. destruct (find _ (bnodes (fb s))) as [[m k]|] eqn:F1.
    + destruct (A4 n k (N1 _ _ _ F1)) as [_ H]. destruct k; try contradiction; [destruct H as (q & lo & hi & E & _); now apply Np in E|reflexivity].
    + destruct (find _ (fns s)) as [[m k']|] eqn:F2; [|reflexivity]. destruct (A5 n k' (N2 _ _ _ F2)) as [_ H]. destruct k'; try contradiction; reflexivity.
Qed.

Lemma hasNode_empty s n : hasNode (ng (empty_netlist s)) n = true <-> n < bnext (fb s).
Proof.
  cbn [ng empty_netlist]. unfold mk_graph. rewrite app_nil_r.
  assert (H : forall n g, (forall a, In a (gnodes g) <-> a < nextn g) -> exists g' xs, run outEdgeIndexThreshold g (repeat OAddNode n) = Some (g', xs) /\
    forall a, In a (gnodes g') <-> a < nextn g + n).
  { clear. induction n as [|n IH]; intros g H; [exists g, []; split; [reflexivity|]; intros a; rewrite H; lia|]. cbn [repeat run step addNode].
    destruct (IH (fst (addNode g))) as (g' & xs & E & Q).
    { cbn [addNode fst gnodes nextn]. intros a. rewrite in_app_iff, H. cbn. lia. }
    cbn [addNode fst] in E. rewrite E. eexists. eexists. split; [reflexivity|]. intros a. rewrite Q. cbn. lia. }
  destruct (H (bnext (fb s)) empty_graph) as (g & xs & E & Q); [intros a; cbn; lia|]. rewrite E. rewrite hasNode_memb, memb_In, Q. cbn. reflexivity.
Qed.

Lemma flow_inv s nl : flow vz rb h nm ports conns asgs = Some (s, nl) -> exists b1 ops role W D ds, ports_made h ports b1 ops /\ sound b1 s role W D /\
  all_done vz rb ports b1 (fb s) role conns /\ (covered (fb s) role asgs /\ one_writer s role) /\ emit_all (bvt (fb s)) (bdm (fb s)) (bpend (fb s)) = DOk ds /\
  drun (empty_netlist s) (bdeps (fb s) ++ ds) = Some nl.
Proof.
  intros Fl. destruct built_sound as (b1 & ops & s' & role & W & D & Es & Pm & So & Dn & Cv). unfold flow in Fl. rewrite Es in Fl.
  destruct (emit_all (bvt (fb s')) (bdm (fb s')) (bpend (fb s'))) as [ds|] eqn:Em; [|discriminate].
  destruct (drun (empty_netlist s') (bdeps (fb s') ++ ds)) as [nl'|] eqn:Dr; [|discriminate]. injection Fl as <- <-.
  exists b1, ops, role, W, D, ds. auto 10.
Qed.
Lemma netlist_exact_one s nl : flow vz rb h nm ports conns asgs = Some (s, nl) -> exists role, (rb = true -> forall n n' t j, hasNode (ng nl) n = true -> hasNode (ng nl) n' = true ->
    writes (role n) t j -> writes (role n') t j -> n = n') /\ stands_for vz rb ports conns asgs (bnodes (fb s)) nl role /\
  exactly vz rb ports conns asgs nl role /\ annotates vz rb conns nm nl role /\
  forall a b x, hasNode (ng nl) a = true -> hasNode (ng nl) b = true -> (forall t j, passes vz rb conns (role a) (role b) t j -> nm t = x) -> within_node vz rb conns role a b ->
    forall t j, passes vz rb conns (role a) (role b) t j -> annotated nl a b x (Z.of_nat j).
Proof.
  intros Fl. destruct (flow_inv s nl Fl) as (b1 & ops & role & W & D & ds & Pm & So & Dn & (Cv & Ow) & Em & Dr).
  assert (Rg0 : reachable outEdgeIndexThreshold (ng (empty_netlist s))) by apply mk_graph_reachable.
  assert (Pe : forall a b, pair_ann (empty_netlist s) a b = []) by (intros a b; unfold pair_ann; cbn [ng empty_netlist]; now rewrite no_edges).
  destruct (drun_conn _ _ _ Rg0 Pe Dr) as (Rg & Ni & Hn & Cn).
  assert (Nd : forall n, hasNode (ng nl) n = true <-> n < bnext (fb s)) by (intros n; rewrite Hn; apply hasNode_empty).
  assert (Dk : forall d, In d (bdeps (fb s) ++ ds) -> dsrc d < bnext (fb s) /\ dtgt d < bnext (fb s) /\ dep_ok role d).
  { intros d Id. apply in_app_or in Id. destruct Id as [Id|Id]; [exact (s_dep _ _ _ _ _ _ _ _ _ _ _ So d Id)|]. exact (emitted b1 ops s role W D ds d Pm So Em Id). }
  assert (Ce : forall a b, Conn nl a b -> a < bnext (fb s) /\ b < bnext (fb s) /\ Feeds (role a) (role b)).
  { intros a b (e & Ie & Et & _). assert (He : has_edge nl a b).
    { unfold has_edge, pair_ann. intros Q. apply map_eq_nil in Q. assert (J : In e (filter (to b) (outs (nst (ng nl) a)))) by (apply filter_In; split; [exact Ie|unfold to; now apply Nat.eqb_eq]).
      rewrite Q in J. destruct J. }
    apply (drun_edges _ _ _ a b Rg0 Dr) in He. destruct He as [He|(d & Id & <- & <-)]; [destruct (He (Pe a b))|].
    destruct (Dk d Id) as (L1 & L2 & Q). split; [exact L1|]. split; [exact L2|]. eapply dep_feeds; eauto. }
  exists role. split; [intros Rb n n' t j Hn' Hn2; apply Ow; [exact Rb|now apply Nd|now apply Nd]|]. split; [|split; [|split]]; [split|split| |].
  - intros n H. apply Nd in H. destruct (stands_kind b1 s role W D n So H) as (K1 & K2 & _ & K3). split; [exact (s_valid _ _ _ _ _ _ _ _ _ _ _ So n H)|].
    rewrite Ni. split; [exact K1|]. split; [exact K2|exact K3].
  - intros n p lo hi Ip I. apply Nd. exact (proj1 (s_bn _ _ _ _ _ _ _ _ _ _ _ So n _ I)).
  - intros a b C. destruct (Ce a b C) as (L1 & L2 & Fd). split; [now apply Nd|]. split; [now apply Nd|exact Fd].
  - intros a b Ha Hb Nc. apply Nd in Ha, Hb. split.
    + intros C. destruct (Ce a b C) as (_ & _ & [(t & j & H)|[Q _]]); [exists t, j; exact H|contradiction].
    + intros (t & j & Wj & Rj). destruct (emitted_all b1 ops s role W D ds a b t j Pm So Dn Em Ha Hb Wj Rj) as (d & Id & <- & <- & _). now apply Cn.
  - intros b Hb. apply Nd in Hb. split.
    + intros C. destruct (dn_c _ _ _ _ _ _ _ _ (Dn b Hb) C) as (m & Lm & Rm & I). exists m. split; [exact Rm|]. apply (Cn (DPlain m b)). apply in_or_app. now left.
    + intros (a & Ra & C). destruct (Ce a b C) as (_ & _ & [(t & j & Wj & _)|[_ Q]]); [|exact Q]. rewrite Ra in Wj. destruct Wj.
  - intros a k Ia Lk. destruct (Cv a k Ia Lk) as (n & lo & hi & L & R & K). exists n, lo, hi. split; [now apply Nd|auto].
  - intros p lo hi x i Ip Id Li. destruct (pm_cover _ _ _ _ Pm p lo hi x i Ip Id Li) as (n & a & c & N & K).
    destruct (s_port _ _ _ _ _ _ _ _ _ _ _ So n p a c Ip N) as [L R]. exists n, a, c. split; [now apply Nd|auto].
  - intros a b x i (y & Iy & Ey & By). destruct (drun_ann _ _ _ _ Rg0 eq_refl Dr) as (_ & _ & _ & _ & A). specialize (A a b). rewrite Pe in A.
    assert (F : fine (fun o i => match o with None => True | Some x => exists t j, x = nm t /\ i = Z.of_nat j /\ writes (role a) t j /\ rds (role b) t j end) (pair_ann nl a b)).
    { refine (arun_inv _ _ _ _ _ _ A _ _); [exact I| |intros z []]. intros a' b' sy r k J i' B. unfold onp in J. apply filter_In in J. destruct J as [J Q].
      apply deq_true in Q. cbn [dsrc dtgt] in Q. destruct Q as [-> ->]. destruct (Dk _ J) as (_ & _ & _ & t & -> & H). destruct (H i') as (j & Ej & K); [now apply bit_lu|].
      exists t, j. auto. }
    specialize (F y Iy i By). rewrite Ey in F. destruct F as (t & j & Et & Ej & K). exists t, j. auto.
  - intros a b x Ha Hb Nx Wn t j Ps. apply Nd in Ha, Hb.
    assert (Ds : forall d, In d (bdeps (fb s) ++ ds) -> dsrc d = a -> dtgt d = b -> role a <> XConst -> exists r k, d = DDep a b (Some x) r k /\ forall i, bit r i -> exists t' j', i = Z.of_nat j' /\ passes vz rb conns (role a) (role b) t' j').
    { intros d I E1 E2 Nc. destruct (Dk d I) as (_ & _ & Q). destruct d as [a' b'|a' b' y r k]; cbn [dsrc dtgt dep_ok] in *; subst a' b'; [destruct Q; contradiction|].
      destruct Q as (_ & t' & -> & Q). assert (Qp : forall i, bit r i -> exists j', i = Z.of_nat j' /\ passes vz rb conns (role a) (role b) t' j') by exact Q.
      destruct (Qp (lower r)) as (j' & _ & P'); [apply bit_lu; pose proof (lower_upper r); lia|]. exists r, k. rewrite (Nx _ _ P'). split; [reflexivity|].
      intros i B. destruct (Qp i B) as (j2 & E & H). eauto. }
    assert (Nc : role a <> XConst) by (intros Q; destruct Ps as [Wj _]; rewrite Q in Wj; destruct Wj).
    destruct (drun_bits _ _ _ a b x Rg0 Dr) with (i := Z.of_nat j) as [_ H].
    { intros r k sy I. destruct (Ds _ I eq_refl eq_refl Nc) as (r' & k' & E & _). now injection E as -> _ _. }
    { rewrite Pe. left. intros z []. }
    apply H. right. destruct (emitted_all b1 ops s role W D ds a b t j Pm So Dn Em Ha Hb (proj1 Ps) (proj2 Ps)) as (d & Id & E1 & E2 & E3).
    destruct (Ds d Id E1 E2 Nc) as (r & k & -> & Pd). exists (Some x), r, k. split; [exact Id|]. split; [apply bit_lu; exact E3|].
    cbn [ninf empty_netlist]. intros nb Eb _. destruct (role a) as [p lo hi|y lo hi|] eqn:Ra.
    + destruct (stands_kind b1 s role W D a So Ha) as (_ & K & _). rewrite (K p lo hi Ra) in Eb. injection Eb as <-. unfold bit_in.
      pose proof (s_valid _ _ _ _ _ _ _ _ _ _ _ So a Ha) as Va. rewrite Ra in Va. destruct Va as (_ & Ll & _). destruct (zlu lo hi Ll) as [-> ->].
      rewrite <- Ra in Ps. pose proof (Wn p lo hi Ra t j Ps). lia.
    + destruct (stands_kind b1 s role W D a So Ha) as (_ & _ & K & _). rewrite K in Eb; [discriminate|]. intros p lo' hi'. rewrite Ra. discriminate.
    + congruence.
Qed.
Lemma netlist_exact s nl : flow vz rb h nm ports conns asgs = Some (s, nl) -> exists role, stands_for vz rb ports conns asgs (bnodes (fb s)) nl role /\
  exactly vz rb ports conns asgs nl role /\ annotates vz rb conns nm nl role /\
  forall a b x, hasNode (ng nl) a = true -> hasNode (ng nl) b = true -> (forall t j, passes vz rb conns (role a) (role b) t j -> nm t = x) -> within_node vz rb conns role a b ->
    forall t j, passes vz rb conns (role a) (role b) t j -> annotated nl a b x (Z.of_nat j).
Proof. intros Fl. destruct (netlist_exact_one s nl Fl) as (role & _ & H). eauto. Qed.
Lemma netlist_sound s nl : flow vz rb h nm ports conns asgs = Some (s, nl) -> exists role, stands_for vz rb ports conns asgs (bnodes (fb s)) nl role.
Proof. intros Fl. destruct (netlist_exact s nl Fl) as (role & H & _). eauto. Qed.

(** * Building succeeds *)
Lemma writes_driven x t j : valid x -> writes x t j -> In (t, j) (all_driven ports conns asgs).
Proof.
  unfold all_driven. intros Vx Wj. destruct x as [p lo hi|a lo hi|]; cbn [item_writes valid_item] in *; [|destruct Vx as (Ia & _)|contradiction].
  - destruct Vx as (Ip & _). destruct Wj as [(-> & _ & Ir)|(c & k & Ic & Oc & _ & _ & K)]; apply in_or_app; [left|right; apply in_or_app; left].
    + apply in_flat_map. exists p. split; [exact Ip|]. now apply (proj2 (input_bits_in (fun _ => []) p j)).
    + apply in_flat_map. exists c. split; [exact Ic|]. unfold output_bits. rewrite Oc. eapply nth_error_In; eauto.
  - destruct Wj as (k & _ & K). apply in_or_app. right. apply in_or_app. right. apply in_flat_map. exists a. split; [exact Ia|]. eapply nth_error_In; eauto.
Qed.
Lemma flow_total : small_indices ports conns asgs -> exists s nl, flow vz rb h nm ports conns asgs = Some (s, nl).
Proof.
  intros Sm. destruct built_sound as (b1 & ops & s & role & W & D & Es & Pm & So & _). destruct (emit_ok b1 ops s role W D Pm So) as (ds & Em).
  unfold flow. rewrite Es, Em. assert (Rg0 : reachable outEdgeIndexThreshold (ng (empty_netlist s))) by apply mk_graph_reachable.
  assert (Dk : forall d, In d (bdeps (fb s) ++ ds) -> dsrc d < bnext (fb s) /\ dtgt d < bnext (fb s) /\ dep_ok role d).
  { intros d Id. apply in_app_or in Id. destruct Id as [Id|Id]; [exact (s_dep _ _ _ _ _ _ _ _ _ _ _ So d Id)|]. exact (emitted b1 ops s role W D ds d Pm So Em Id). }
  destruct (drun_total (bdeps (fb s) ++ ds) (empty_netlist s) Rg0) as (nl & E).
  - intros d I. destruct (Dk d I) as (L1 & L2 & _). split; now apply hasNode_empty.
  - intros a b x I. unfold pair_ann in I. cbn [ng empty_netlist] in I. rewrite no_edges in I. destruct I.
  - intros a b sy r k I. destruct (Dk _ I) as (L1 & _ & _ & t & _ & H). cbn [dsrc] in L1.
    assert (Q : forall i, bit r i -> (0 <= i < int32_max)%Z).
    { intros i B. destruct (H i B) as (j & -> & Wj & _). split; [lia|]. eapply Sm, writes_driven; [|exact Wj]. exact (s_valid _ _ _ _ _ _ _ _ _ _ _ So a L1). }
    pose proof (lower_upper r). destruct (Q (lower r)) as [Q1 _]; [apply bit_lu; lia|]. destruct (Q (upper r)) as [_ Q2]; [apply bit_lu; lia|]. split; assumption.
  - rewrite E. cbn [option_map]. eauto.
Qed.

Lemma cone_connected s nl n cone : flow vz rb h nm ports conns asgs = Some (s, nl) -> getCombFanIn nl n = Some cone ->
  forall p lo hi q a c m, In p ports -> In q ports -> In (n, BPort (fp_id p) (zrange lo hi)) (bnodes (fb s)) -> In m cone ->
    In (m, BPort (fp_id q) (zrange a c)) (bnodes (fb s)) -> Connected vz rb ports conns asgs (XPort q a c) (XPort p lo hi).
Proof.
  intros Fl Fi p lo hi q a c m Ip Iq Ip' Im Iq'. destruct (netlist_sound s nl Fl) as (role & St).
  destruct (fanIn_of nl n cone (flow_wf _ _ _ _ _ _ _ _ _ Fl) Fi) as [_ Rc]. apply Rc in Im.
  assert (Rl : forall k r x y, In r ports -> In (k, BPort (fp_id r) (zrange x y)) (bnodes (fb s)) -> role k = XPort r x y).
  { intros k r x y Ir I. destruct (st_node _ _ _ _ _ _ _ _ St k (st_has _ _ _ _ _ _ _ _ St _ _ _ _ Ir I)) as (_ & _ & _ & H). now apply H. }
  pose proof (Rl _ _ _ _ Ip Ip') as Rn. pose proof (Rl _ _ _ _ Iq Iq') as Rm.
  rewrite <- Rn, <- Rm. clear Rn Rm Iq' Ip'. induction Im as [|x y Im IH H]; [constructor|].
  destruct H as [C _]. destruct (st_conn _ _ _ _ _ _ _ _ St _ _ C) as (H1 & H2 & Fd). econstructor; [exact Fd| |exact IH].
  apply (st_node _ _ _ _ _ _ _ _ St x H2).
Qed.
Lemma cone_exact s nl : flow vz rb h nm ports conns asgs = Some (s, nl) -> exists role, stands_for vz rb ports conns asgs (bnodes (fb s)) nl role /\
  exactly vz rb ports conns asgs nl role /\
  forall n cone, getCombFanIn nl n = Some cone -> forall m, role m <> XConst -> (In m cone <-> Reach (fed vz rb conns nl role) n m).
Proof.
  intros Fl. destruct (netlist_exact s nl Fl) as (role & St & Ex & _). exists role. split; [exact St|]. split; [exact Ex|]. intros n cone Fi m Nm.
  destruct (fanIn_of nl n cone (flow_wf _ _ _ _ _ _ _ _ _ Fl) Fi) as [_ Rc]. rewrite Rc. clear Fi Rc. split.
  - intros R. induction R as [|b c R IH H]; [constructor|]. destruct H as [C _]. destruct (st_conn _ _ _ _ _ _ _ _ St _ _ C) as (H1 & H2 & Fd).
    apply (reach_step _ _ b c).
    + apply IH. intros Q. rewrite Q in Fd. destruct Fd as [(t & j & _ & [])|[_ []]].
    + split; [exact H1|]. split; [exact H2|]. now apply (ex_conn _ _ _ _ _ _ _ Ex).
  - intros R. clear Nm. induction R as [|b c R IH H]; [constructor|]. destruct H as (H1 & H2 & t & j & P). apply (reach_step _ _ b c); [exact IH|].
    assert (Nc : role c <> XConst) by (intros Q; destruct P as [Wj _]; rewrite Q in Wj; destruct Wj). split.
    + apply (ex_conn _ _ _ _ _ _ _ Ex c b H1 H2 Nc). eauto.
    + destruct (st_node _ _ _ _ _ _ _ _ St c H1) as (_ & -> & _). destruct (role c); discriminate.
Qed.
End F.
