(** Proofs about whole designs: the port nodes. *)
From Coq Require Import Sorted.
From Verif Require Import Base M_Graph M_Range M_Netlist M_Annot M_Interval M_Heap M_Drivers M_Pending M_DFA M_Builder M_Slice M_Port M_Flow
  S_Reach S_Netlist S_Interval S_Drivers S_DFA S_Builder S_Slice S_Port S_Flow
  P_Interval P_Heap P_Drivers P_DriversX P_DFA P_DFA2 P_Builder P_Slice P_Slice2 P_Port P_Flow2 P_Flow3.

Definition PN (b : bld) (n p lo hi : nat) : Prop := In (n, BPort p (zrange lo hi)) (bnodes b).

(** After the ports [qs] have been made; [ops] is what has been registered. *)
Record ports_made (h : hints) (qs : list fport) (b : bld) (ops : list (nat * range * nat)) : Prop := {
  pm_gok : gok b;
  pm_vt : bvt b = vt_run vt_empty ops;
  pm_apart : apart_nodes ops;
  pm_ops : forall p r n, In (p, r, n) ops <-> In (n, BPort p r) (bnodes b);
  pm_nodes : forall n k, In (n, k) (bnodes b) -> exists p lo hi a c x, In p qs /\ k = BPort (fp_id p) (zrange lo hi) /\
    In (a, c, x) (fp_drivers p) /\ a <= lo <= hi /\ hi <= c /\
    (lo = a \/ exists hs, h (fp_sy p) = Some hs /\ In lo hs) /\ (hi = c \/ exists hs, h (fp_sy p) = Some hs /\ In (hi + 1) hs);
  pm_cover : forall p a c x i, In p qs -> In (a, c, x) (fp_drivers p) -> a <= i <= c -> exists n lo hi, PN b n (fp_id p) lo hi /\ lo <= i <= hi;
  pm_input : forall p n lo hi i, In p qs -> PN b n (fp_id p) lo hi -> lo <= i <= hi -> in_range (fp_drivers p) true i ->
    drives_global (bdm b) (fp_sy p) (Z.of_nat i) n;
  pm_other : forall sy, ~ In sy (map fp_sy qs) -> bdm b sy = None;
  pm_ids : forall n k, In (n, k) (bnodes b) -> n < bnext b;
  pm_inner : forall p n lo hi hs c, In p qs -> PN b n (fp_id p) lo hi -> h (fp_sy p) = Some hs -> In c hs -> ~ lo < c <= hi;
  pm_uniq : forall n k k', In (n, k) (bnodes b) -> In (n, k') (bnodes b) -> k = k' }.

Lemma apart_app ops ops' : apart_nodes ops -> apart_nodes ops' -> (forall s b n b' n', In (s, b, n) ops -> ~ In (s, b', n') ops') -> apart_nodes (ops ++ ops').
Proof.
  intros A A' D p s b n q b' n' r E. destruct (split_two _ _ _ _ _ _ _ E) as [(p' & H)|[(q1 & H1 & q2 & H2)|(r1 & H)]].
  - eapply A', H.
  - exfalso. apply (D s b n b' n').
    + rewrite H1. apply in_or_app. right. now left.
    + rewrite H2. apply in_or_app. right. now left.
  - eapply A, H.
Qed.
Lemma port_ops_apart port n l : ranges_apart l -> ascending l -> apart_nodes (port_ops port n l).
Proof.
  intros A S p s b m q b' m' r E i [B B']. destruct (ops_pos port _ _ _ _ _ _ _ E) as (a & l1 & h1 & x1 & c & l2 & h2 & x2 & d & Fl & Z1 & Z2).
  cbn in Z1, Z2. subst b b'. pose proof (A _ _ _ _ _ _ _ _ _ Fl).
  assert (l1 <= h1) by (apply (S l1 h1 x1); rewrite Fl; apply in_or_app; right; now left).
  assert (l2 <= h2) by (apply (S l2 h2 x2); rewrite Fl; apply in_or_app; right; right; apply in_or_app; right; now left).
  rewrite zbit in B, B' by assumption. lia.
Qed.

Lemma materialize_gok hints s port sy ds s' : ascending ds -> ranges_apart ds -> (forall hs, hints sy = Some hs -> StronglySorted lt hs) ->
  bdm s sy = None -> gok s -> materializePortNodes hints s port (Some sy) ds = DOk s' ->
  gok s' /\ bnext s' = bnext s + length (flat (hints sy) ds) /\ bdeps s' = bdeps s /\ bpend s' = bpend s.
Proof.
  intros S A Sh N G E. destruct (flat_ok (hints sy) ds S A Sh) as [FS FA]. set (l := flat (hints sy) ds) in *.
  assert (D0 : dmof s sy = dm_empty) by (unfold dmof; now rewrite N).
  destruct (run_exact_empty (port_calls (bnext s) l)) as (d & Rc & Dk & Us & B).
  { apply calls_no_inner; auto. intros q lo hi x []. }
  rewrite <- D0 in Rc. destruct (make_all_fields port sy l s d Rc) as (s1 & E' & F1 & F2 & F3 & F4 & F5 & F6 & F7).
  cbn [materializePortNodes] in E. rewrite make_drivers_all in E. fold l in E. rewrite E' in E. injection E as <-.
  split; [|auto]. intros sy' d' Q. destruct (Nat.eq_dec sy' sy) as [->|Ne].
  - unfold dmof in F4. rewrite Q in F4. subst d'. split; [exact Dk|apply Us].
  - rewrite F5 in Q by exact Ne. now apply (G sy' d').
Qed.

Section Ports.
Variable h : hints.
Hypothesis Sh : sorted_hints h.

Lemma one_port qs b ops p : ports_made h qs b ops -> ~ In (fp_id p) (map fp_id qs) -> ~ In (fp_sy p) (map fp_sy qs) ->
  ascending (fp_drivers p) -> ranges_apart (fp_drivers p) ->
  exists b' ops', materializePortNodes h b (fp_id p) (Some (fp_sy p)) (fp_drivers p) = DOk b' /\ ports_made h (qs ++ [p]) b' ops' /\
    bdeps b' = bdeps b /\ bpend b' = bpend b.
Proof.
  intros [G Vt Ap Op Nd Cv Ip Ot Id In_ Un] Ni Ns As Ra.
  assert (Shp : forall hs, h (fp_sy p) = Some hs -> StronglySorted lt hs) by (intros hs; apply Sh).
  pose proof (Ot _ Ns) as Nn.
  destruct (materialize_inputs h b (fp_id p) (fp_sy p) (fp_drivers p) As Ra Shp Nn) as (b' & new' & E & En' & Dr & Ko).
  destruct (materialize_nodes h b (fp_id p) (fp_sy p) (fp_drivers p) b' As Shp E) as (new & En & Sq & Vt' & Op' & Nd' & Cv' & _).
  assert (new' = new) by (rewrite En in En'; now apply app_inv_head in En'). subst new'. clear En'.
  destruct (materialize_gok h b (fp_id p) (fp_sy p) (fp_drivers p) b' As Ra Shp Nn G E) as (G' & Bn & Bd & Bp).
  set (ops' := port_ops (fp_id p) (bnext b) (flat (h (fp_sy p)) (fp_drivers p))) in *.
  assert (Ln : length new = length (flat (h (fp_sy p)) (fp_drivers p))).
  { assert (Q : length (bnodes b') = length (bnodes b) + length new) by (rewrite En, app_length; reflexivity).
    assert (X : map fst new = map snd ops').
    { apply (f_equal (@length _)) in En. unfold ops'. rewrite ops_ids, Sq. f_equal.
      cbn [materializePortNodes] in E. rewrite make_drivers_all in E.
      destruct (run_calls (dmof b (fp_sy p)) (port_calls (bnext b) (flat (h (fp_sy p)) (fp_drivers p)))) as [d|er] eqn:Rc;
        [|rewrite (make_all_err _ _ _ _ _ Rc) in E; discriminate].
      destruct (make_all_fields (fp_id p) (fp_sy p) _ _ _ Rc) as (s1 & E1 & _ & F2 & _). rewrite E1 in E. injection E as ->.
      rewrite F2, !app_length, map_length in Q. rewrite <- (map_length snd (port_ops _ _ _)), ops_ids, seq_length in Q. lia. }
    rewrite <- (map_length fst new), X, map_length. unfold ops'. rewrite <- (map_length snd (port_ops _ _ _)), ops_ids. now rewrite seq_length. }
  assert (Old : forall n q r, In (n, BPort q r) (bnodes b) -> exists p0, In p0 qs /\ q = fp_id p0).
  { intros n q r I. destruct (Nd _ _ I) as (p0 & lo & hi & a & c & x & I0 & [= -> _] & _). eauto. }
  assert (New : forall n k, In (n, k) new -> exists lo hi, k = BPort (fp_id p) (zrange lo hi)).
  { intros n k I. destruct (Nd' _ _ I) as (lo & hi & a & c & x & -> & _). eauto. }
  assert (Pid : forall p0, In p0 qs -> fp_id p0 <> fp_id p).
  { intros p0 I0 Q. apply Ni. rewrite <- Q. apply in_map, I0. }
  assert (Psy : forall p0, In p0 qs -> fp_sy p0 <> fp_sy p).
  { intros p0 I0 Q. apply Ns. rewrite <- Q. apply in_map, I0. }
  exists b', (ops ++ ops'). split; [exact E|]. split; [|auto]. split.
  - exact G'.
  - rewrite Vt', Vt, vt_run_app. reflexivity.
  - apply apart_app; [exact Ap| |].
    + destruct (flat_ok (h (fp_sy p)) (fp_drivers p) As Ra Shp) as [FS FA]. now apply port_ops_apart.
    + intros s r n r' n' I J. apply Op in I. destruct (Old _ _ _ I) as (p0 & I0 & ->).
      pose proof (ops_port _ _ _ _ J) as Q. cbn in Q. exact (Pid p0 I0 Q).
  - intros q r n. rewrite En, !in_app_iff, Op, Op'. split.
    + intros [I|(r' & n' & [= -> -> ->] & I)]; auto.
    + intros [I|I]; [auto|]. right. destruct (New _ _ I) as (lo & hi & [= -> ->]). eauto.
  - intros n k I. rewrite En in I. apply in_app_or in I. destruct I as [I|I].
    + destruct (Nd _ _ I) as (p0 & lo & hi & a & c & x & I0 & R). exists p0, lo, hi, a, c, x. split; [apply in_or_app; now left|exact R].
    + destruct (Nd' _ _ I) as (lo & hi & a & c & x & Ek & I1 & L1 & L2 & H1 & H2 & _). exists p, lo, hi, a, c, x.
      split; [apply in_or_app; right; now left|]. auto 10.
  - intros q a c x i Iq Id' L. apply in_app_or in Iq. unfold PN. destruct Iq as [Iq|[<-|[]]].
    + destruct (Cv q a c x i Iq Id' L) as (n & lo & hi & I & K). exists n, lo, hi. rewrite En. split; [apply in_or_app; now left|exact K].
    + destruct (proj2 (Cv' i)) as (n & lo & hi & I & K); [eauto|]. exists n, lo, hi. rewrite En. split; [apply in_or_app; now right|exact K].
  - intros q n lo hi i Iq I L Ir. unfold PN in I. rewrite En in I. apply in_app_or in Iq. apply in_app_or in I. destruct Iq as [Iq|[<-|[]]].
    + destruct I as [I|I]; [|destruct (New _ _ I) as (? & ? & Q); injection Q as Q _; destruct (Pid q Iq Q)].
      destruct (Ip q n lo hi i Iq I L Ir) as (d & Q & H). exists d. split; [|exact H]. rewrite Ko; [exact Q|apply Psy, Iq].
    + destruct I as [I|I]; [destruct (Old _ _ _ I) as (p0 & I0 & Q); destruct (Pid p0 I0); congruence|].
      destruct Ir as (a & c & Ir & La). apply Dr. exists lo, hi, a, c. auto.
  - intros sy N. rewrite map_app, in_app_iff in N. cbn in N. rewrite Ko by (intros ->; apply N; auto). apply Ot. auto.
  - intros n k I. rewrite En in I. apply in_app_or in I. rewrite Bn. destruct I as [I|I]; [specialize (Id _ _ I); lia|].
    assert (J : In n (map fst new)) by (apply in_map_iff; exists (n, k); auto). rewrite Sq in J. apply in_seq in J. lia.
  - intros q n lo hi hs c Iq I Eh Ih. unfold PN in I. rewrite En in I. apply in_app_or in Iq. apply in_app_or in I. destruct Iq as [Iq|[<-|[]]].
    + destruct I as [I|I]; [|destruct (New _ _ I) as (? & ? & Q); injection Q as Q _; destruct (Pid q Iq Q)]. eapply In_; eauto.
    + destruct I as [I|I]; [destruct (Old _ _ _ I) as (p0 & I0 & Q); destruct (Pid p0 I0); congruence|].
      destruct (Nd' _ _ I) as (lo' & hi' & a & d & x & Ek & _ & _ & _ & _ & _ & H). injection Ek as E1 E2.
      specialize (H hs c Eh Ih). lia.
  - intros n k k' I I'. rewrite En in I, I'. apply in_app_or in I. apply in_app_or in I'.
    assert (Ge : forall k0, In (n, k0) new -> bnext b <= n).
    { intros k0 J. assert (J' : In n (map fst new)) by (apply in_map_iff; exists (n, k0); auto). rewrite Sq in J'. apply in_seq in J'. lia. }
    destruct I as [I|I], I' as [I'|I'].
    + eapply Un; eauto.
    + specialize (Id _ _ I). specialize (Ge _ I'). lia.
    + specialize (Id _ _ I'). specialize (Ge _ I). lia.
    + assert (ND : NoDup (map fst new)) by (rewrite Sq; apply seq_NoDup). clear -ND I I'.
      induction new as [|[m x] l IH]; [destruct I|]. cbn in ND. inversion ND as [|? ? N1 N2]; subst.
      destruct I as [I|I], I' as [I'|I'].
      * congruence.
      * inversion I; subst. exfalso. apply N1, in_map_iff. exists (n, k'). auto.
      * inversion I'; subst. exfalso. apply N1, in_map_iff. exists (n, k). auto.
      * auto.
Qed.

Lemma all_ports : forall ps qs b ops, ports_made h qs b ops -> NoDup (map fp_id (qs ++ ps)) -> NoDup (map fp_sy (qs ++ ps)) ->
  (forall p, In p ps -> ascending (fp_drivers p) /\ ranges_apart (fp_drivers p)) ->
  exists b' ops', make_all_ports h b ps = DOk b' /\ ports_made h (qs ++ ps) b' ops' /\ bdeps b' = bdeps b /\ bpend b' = bpend b.
Proof.
  induction ps as [|p ps IH]; intros qs b ops M Ni Ns D; cbn [make_all_ports].
  - exists b, ops. rewrite app_nil_r. auto.
  - destruct (D p (or_introl eq_refl)) as [As Ra].
    destruct (one_port qs b ops p M) as (b1 & ops1 & E & M1 & B1 & B2); auto.
    { rewrite map_app in Ni. apply NoDup_remove_2 in Ni. intros I. apply Ni, in_or_app. now left. }
    { rewrite map_app in Ns. apply NoDup_remove_2 in Ns. intros I. apply Ns, in_or_app. now left. }
    rewrite E. cbn [dbind]. destruct (IH (qs ++ [p]) b1 ops1 M1) as (b2 & ops2 & E2 & M2 & C1 & C2).
    + now rewrite <- app_assoc.
    + now rewrite <- app_assoc.
    + intros q I. apply D. now right.
    + rewrite <- app_assoc in M2. exists b2, ops2. split; [exact E2|]. split; [exact M2|]. split; congruence.
Qed.
Lemma ports_start : ports_made h [] bempty [].
Proof.
  split; cbn; try tauto; try (intros; tauto); try reflexivity.
  - intros sy d Q. discriminate.
  - intros p s r n q r' n' t E. destruct p; discriminate.
Qed.
End Ports.
