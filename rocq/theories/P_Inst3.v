(** What the builder makes of the collecting traversal. *)
From Coq Require Import Sorted NArith Nnat.
From Verif Require Import Base M_Graph M_Range M_Netlist M_Text S_Text P_Text M_Annot M_Interval M_Heap M_Drivers M_Pending M_DFA M_Builder M_Slice M_Port M_Inst
  S_Interval S_Drivers S_DFA S_Builder S_Slice S_Port S_Inst P_Slice P_Slice2 P_Slice3 P_Interval P_Heap P_Drivers P_Builder P_Port P_Port2 P_Port3 P_Inst P_Inst2.

Section E.
Context {V : Type}.
Variable prop : bool.
Variable vz : V.
Variable visit : expr V -> list path.
Variable sykind : nat -> skind.
Variable nm : nat -> str.
Variable backrefs : nat -> list nat.
Variable behind : nat -> nat -> list ipath.
Variable symw : nat -> N.
Variable resolveBits : bool.
Notation iev := (@iev V).
Notation run_ev := (run_ev prop vz visit sykind nm backrefs behind symw resolveBits).
Notation run_evs := (run_evs prop vz visit sykind nm backrefs behind symw resolveBits).

Lemma badd_nodes s sy b dl m s' : baddDrivers s sy b dl m = DOk s' -> bnodes s' = bnodes s.
Proof. unfold baddDrivers. cbn [dbind]. destruct (addDrivers _ _ _ _) as [d|]; cbn; [intros [= <-]; reflexivity|discriminate]. Qed.
Lemma make_ports_nodes port sy input : forall segs s s', make_ports s port sy input segs = DOk s' ->
  exists new, bnodes s' = bnodes s ++ new /\ forall m k, In (m, k) new -> exists b, k = BPort port b.
Proof.
  induction segs as [|[lo hi] segs IH]; intros s s' E; cbn [make_ports] in E.
  - injection E as <-. exists []. rewrite app_nil_r. split; [reflexivity|intros ? ? []].
  - cbn in E. destruct input.
    + match type of E with context [baddDrivers ?a ?b ?c ?d ?e] => destruct (baddDrivers a b c d e) as [s2|] eqn:Eb end; cbn in E; [|discriminate].
      apply badd_nodes in Eb. cbn in Eb. destruct (IH _ _ E) as (new & -> & F). rewrite Eb, <- app_assoc. eexists. split; [reflexivity|].
      intros m k [[= <- <-]|I]; eauto.
    + destruct (IH _ _ E) as (new & -> & F). cbn. rewrite <- app_assoc. eexists. split; [reflexivity|]. intros m k [[= <- <-]|I]; eauto.
Qed.
Lemma make_drivers_nodes h port sy : forall ds s s', make_drivers h s port sy ds = DOk s' ->
  exists new, bnodes s' = bnodes s ++ new /\ forall m k, In (m, k) new -> exists b, k = BPort port b.
Proof.
  induction ds as [|[[lo hi] input] ds IH]; intros s s' E; cbn [make_drivers] in E.
  - injection E as <-. exists []. rewrite app_nil_r. split; [reflexivity|intros ? ? []].
  - destruct (make_ports s port sy input (port_segments h lo hi)) as [s1|] eqn:E1; cbn in E; [|discriminate].
    destruct (make_ports_nodes _ _ _ _ _ _ E1) as (n1 & Q1 & F1). destruct (IH _ _ E) as (n2 & Q2 & F2).
    exists (n1 ++ n2). rewrite Q2, Q1, app_assoc. split; [reflexivity|]. intros m k I. apply in_app_iff in I. destruct I; eauto.
Qed.
Lemma mat_nodes hints s port int ds s' : materializePortNodes hints s port int ds = DOk s' ->
  exists new, bnodes s' = bnodes s ++ new /\ forall m k, In (m, k) new -> exists b, k = BPort port b.
Proof.
  destruct int as [sy|]; cbn [materializePortNodes].
  - apply make_drivers_nodes.
  - intros [= <-]. exists []. rewrite app_nil_r. split; [reflexivity|intros ? ? []].
Qed.
Lemma vars_nodes sy : forall ds s, exists new, bnodes (make_vars s sy ds) = bnodes s ++ new /\
  (forall m k, In (m, k) new -> exists lo hi, In (lo, hi) ds /\ k = BVariable sy (zrange lo hi)) /\
  (forall lo hi, In (lo, hi) ds -> exists m, In (m, BVariable sy (zrange lo hi)) new).
Proof.
  unfold make_vars. induction ds as [|[lo hi] ds IH]; intros s; cbn [fold_left].
  - exists []. rewrite app_nil_r. split; [reflexivity|]. split; [intros ? ? []|intros ? ? []].
  - destruct (IH (fst (createVariable s sy (zrange lo hi)))) as (new & Q & F & G).
    exists ((bnext s, BVariable sy (zrange lo hi)) :: new). split; [cbn [fst snd]; rewrite Q; cbn; now rewrite <- app_assoc|]. split.
    + intros m k [[= <- <-]|I]; [exists lo, hi; split; [now left|reflexivity]|]. destruct (F m k I) as (a & b & Qi & ->). exists a, b. split; [now right|reflexivity].
    + intros a b [[= <- <-]|I]; [eexists; now left|]. destruct (G a b I) as (m & Im). exists m. now right.
Qed.
Lemma act_nodes s (a : @pact V) s' : apply_act sykind nm backrefs behind s a = DOk s' ->
  exists new, bnodes s' = bnodes s ++ new /\ forall m k, In (m, k) new -> k = BConst.
Proof.
  destruct a as [sy lo hi n|sy lo hi n|v ns]; cbn [apply_act].
  - destruct (baddDrivers s sy (zrange lo hi) [n] true) as [s1|] eqn:E; cbn; [|discriminate]. intros [= <-]. apply badd_nodes in E.
    exists []. rewrite app_nil_r. split; [exact E|intros ? ? []].
  - intros [= <-]. exists []. rewrite app_nil_r. split; [|intros ? ? []]. unfold baddRvalue. destruct (sykind sy); reflexivity.
  - intros [= <-]. cbn. eexists. split; [reflexivity|]. intros m k [[= <- <-]|[]]. reflexivity.
Qed.
Lemma acts_nodes : forall (l : list (@pact V)) s s', apply_acts sykind nm backrefs behind s l = DOk s' ->
  exists new, bnodes s' = bnodes s ++ new /\ forall m k, In (m, k) new -> k = BConst.
Proof.
  induction l as [|a l IH]; intros s s' E; cbn [apply_acts] in E.
  - injection E as <-. exists []. rewrite app_nil_r. split; [reflexivity|intros ? ? []].
  - destruct (apply_act _ _ _ _ s a) as [s1|] eqn:E1; cbn in E; [|discriminate].
    destruct (act_nodes _ _ _ E1) as (n1 & Q1 & F1). destruct (IH _ _ E) as (n2 & Q2 & F2).
    exists (n1 ++ n2). rewrite Q2, Q1, app_assoc. split; [reflexivity|]. intros m k I. apply in_app_iff in I. destruct I; eauto.
Qed.

(** Where the nodes of one event come from. *)
Definition from (e : iev) (k : bnode) : Prop :=
  match k with
  | BPort p _ => exists i int ds, e = VPort i p int ds
  | BVariable sy b => exists i ds lo hi, e = VVar i sy ds /\ In (lo, hi) ds /\ b = zrange lo hi
  | BConst => exists i p o x, e = VConn i p o x
  | BState _ _ => False
  end.
Lemma ev_nodes t e t' : run_ev t e = DOk t' -> exists new, bnodes (ibld t') = bnodes (ibld t) ++ new /\ forall m k, In (m, k) new -> from e k.
Proof.
  destruct e as [i cs|i path|i p int ds|i sy ds|i id b|i p o x]; cbn [M_Inst.run_ev].
  - intros [= <-]. exists []. rewrite app_nil_r. split; [reflexivity|intros ? ? []].
  - intros [= <-]. exists []. rewrite app_nil_r. split; [reflexivity|intros ? ? []].
  - destruct (materializePortNodes _ _ p int ds) as [s|] eqn:E; cbn; [|discriminate]. intros [= <-]. cbn.
    destruct (mat_nodes _ _ _ _ _ _ E) as (new & -> & F). exists new. split; [reflexivity|]. intros m k I. destruct (F m k I) as (b & ->). cbn. eauto.
  - intros [= <-]. cbn. destruct (vars_nodes sy ds (ibld t)) as (new & -> & F & _). exists new. split; [reflexivity|].
    intros m k I. destruct (F m k I) as (lo & hi & J & ->). cbn. eauto 8.
  - intros [= <-]. exists []. rewrite app_nil_r. split; [reflexivity|intros ? ? []].
  - destruct (cactual x) as [a|]; [|intros [= <-]; exists []; rewrite app_nil_r; split; [reflexivity|intros ? ? []]].
    destruct (handlePortConnection _ _ _ _ _ _ _ _) as [l|]; [|discriminate].
    destruct (apply_acts _ _ _ _ (ibld t) l) as [s|] eqn:E; cbn; [|discriminate]. intros [= <-]. cbn.
    destruct (acts_nodes _ _ _ E) as (new & -> & F). exists new. split; [reflexivity|]. intros m k I. rewrite (F m k I). cbn. eauto.
Qed.
Lemma run_split : forall l1 l2 t t', run_evs t (l1 ++ l2) = DOk t' <-> exists t1, run_evs t l1 = DOk t1 /\ run_evs t1 l2 = DOk t'.
Proof.
  induction l1 as [|e l1 IH]; intros l2 t t'; cbn [M_Inst.run_evs app].
  - split; [eauto|intros (t1 & [= <-] & E); exact E].
  - destruct (run_ev t e) as [t0|]; cbn; [apply IH|split; [discriminate|intros (t1 & E & _); discriminate]].
Qed.
Lemma evs_nodes : forall evs t t', run_evs t evs = DOk t' ->
  exists new, bnodes (ibld t') = bnodes (ibld t) ++ new /\ forall m k, In (m, k) new -> exists e, In e evs /\ from e k.
Proof.
  induction evs as [|e evs IH]; intros t t' E; cbn [M_Inst.run_evs] in E.
  - injection E as <-. exists []. rewrite app_nil_r. split; [reflexivity|intros ? ? []].
  - destruct (run_ev t e) as [t1|] eqn:E1; cbn in E; [|discriminate]. destruct (ev_nodes _ _ _ E1) as (n1 & Q1 & F1). destruct (IH _ _ E) as (n2 & Q2 & F2).
    exists (n1 ++ n2). rewrite Q2, Q1, app_assoc. split; [reflexivity|]. intros m k I. apply in_app_iff in I. destruct I as [I|I].
    + exists e. split; [now left|eauto].
    + destruct (F2 m k I) as (e' & I' & F). exists e'. split; [now right|exact F].
Qed.
(** A new node comes with the state its event ran in. *)
Lemma node_from : forall evs t t' m k, run_evs t evs = DOk t' -> In (m, k) (bnodes (ibld t')) -> In (m, k) (bnodes (ibld t)) \/
  exists l1 e l2 t1 t2, evs = l1 ++ e :: l2 /\ run_evs t l1 = DOk t1 /\ run_ev t1 e = DOk t2 /\ from e k /\
    In (m, k) (skipn (length (bnodes (ibld t1))) (bnodes (ibld t2))).
Proof.
  induction evs as [|e evs IH]; intros t t' m k E I; cbn [M_Inst.run_evs] in E.
  - injection E as <-. now left.
  - destruct (run_ev t e) as [t1|] eqn:E1; cbn in E; [|discriminate]. destruct (IH _ _ m k E I) as [J|(l1 & e' & l2 & t2 & t3 & Q & R & R2 & F & J)].
    + destruct (ev_nodes _ _ _ E1) as (new & Q & F). rewrite Q in J. apply in_app_iff in J. destruct J as [J|J]; [now left|]. right.
      exists [], e, evs, t, t1. split; [reflexivity|]. split; [reflexivity|]. split; [exact E1|]. split; [eauto|].
      rewrite Q, skipn_app, Nat.sub_diag, skipn_all. exact J.
    + right. exists (e :: l1), e', l2, t2, t3. split; [now rewrite Q|]. split; [|auto]. cbn [M_Inst.run_evs]. rewrite E1. exact R.
Qed.
Lemma run_lists : forall evs t t', run_evs t evs = DOk t' ->
  ibox t' = ibox t ++ flat_map (fun e => match e with VBox _ p => [p] | _ => [] end) evs /\
  idefer t' = idefer t ++ flat_map (fun e => match e with VDefer _ id b => [(id, b)] | _ => [] end) evs.
Proof.
  induction evs as [|e evs IH]; intros t t' E; cbn [M_Inst.run_evs] in E.
  - injection E as <-. rewrite !app_nil_r. auto.
  - destruct (run_ev t e) as [t1|] eqn:E1; cbn in E; [|discriminate]. destruct (IH _ _ E) as (-> & ->). cbn [flat_map].
    destruct e as [i cs|i path|i p int ds|i sy ds|i id b|i p o x]; cbn [M_Inst.run_ev] in E1.
    + injection E1 as <-. auto.
    + injection E1 as <-. cbn. rewrite <- app_assoc. auto.
    + destruct (materializePortNodes _ _ p int ds) as [s|]; cbn in E1; [|discriminate]. injection E1 as <-. auto.
    + injection E1 as <-. auto.
    + injection E1 as <-. cbn. rewrite <- app_assoc. auto.
    + destruct (cactual x) as [a|]; [|injection E1 as <-; auto].
      destruct (handlePortConnection _ _ _ _ _ _ _ _) as [l|]; [|discriminate].
      destruct (apply_acts _ _ _ _ (ibld t) l) as [s|]; cbn in E1; [|discriminate]. injection E1 as <-. auto.
Qed.

(** The registry along the way. *)
Definition cuts_ok (x : @pconn V) : Prop := forall sy e, eligible x sy e -> typed (fun _ _ => False) e /\ concat_shaped e /\ symw sy = N.of_nat (ew e).
Lemma ev_reg t e t' : run_ev t e = DOk t' -> ireg t' = match e with VCuts _ cs => recordCuts symw (ireg t) cs | _ => ireg t end.
Proof.
  destruct e as [i cs|i path|i p int ds|i sy ds|i id b|i p o x]; cbn [M_Inst.run_ev]; try (intros [= <-]; reflexivity).
  - destruct (materializePortNodes _ _ p int ds) as [s|]; cbn; [|discriminate]. intros [= <-]. reflexivity.
  - destruct (cactual x) as [a|]; [|intros [= <-]; reflexivity].
    destruct (handlePortConnection _ _ _ _ _ _ _ _) as [l|]; [|discriminate].
    destruct (apply_acts _ _ _ _ (ibld t) l) as [s|]; cbn; [|discriminate]. intros [= <-]. reflexivity.
Qed.
Lemma run_sorted : forall evs t t', run_evs t evs = DOk t' -> reg_sorted (ireg t) -> reg_sorted (ireg t').
Proof.
  induction evs as [|e evs IH]; intros t t' E S; cbn [M_Inst.run_evs] in E; [now injection E as <-|].
  destruct (run_ev t e) as [t1|] eqn:E1; cbn in E; [|discriminate]. apply (IH _ _ E). rewrite (ev_reg _ _ _ E1).
  destruct e; auto. now apply recordCuts_sorted.
Qed.
Lemma run_mono : forall evs t t', run_evs t evs = DOk t' -> forall s c, In c (regl (ireg t) s) -> In c (regl (ireg t') s).
Proof.
  induction evs as [|e evs IH]; intros t t' E s c I; cbn [M_Inst.run_evs] in E; [now injection E as <-|].
  destruct (run_ev t e) as [t1|] eqn:E1; cbn in E; [|discriminate]. apply (IH _ _ E). rewrite (ev_reg _ _ _ E1).
  destruct e; auto. now apply recordCuts_mono.
Qed.
Lemma cuts_known l1 i xs l2 t t' x sy e c : run_evs t (l1 ++ VCuts i xs :: l2) = DOk t' -> reg_sorted (ireg t) ->
  (forall x, In x xs -> cuts_ok x) -> In x xs -> eligible x sy e -> boundary (build vz no_hints e []) c -> 0 < c < ew e ->
  In (N.of_nat c) (regl (ireg t') sy).
Proof.
  intros R S T I El B L. apply run_split in R. destruct R as (t1 & R1 & R2). pose proof (run_sorted _ _ _ R1 S) as S1.
  cbn [M_Inst.run_evs] in R2. destruct (run_ev t1 (VCuts i xs)) as [t2|] eqn:E; cbn in R2; [|discriminate].
  apply (run_mono _ _ _ R2). rewrite (ev_reg _ _ _ E).
  apply in_split in I. destruct I as (p & q & Ex). apply (recorded vz symw (ireg t1) xs sy c S1 T). right. exists p, x, q, e. split; [exact Ex|].
  split; [exact El|]. split; [lia|]. destruct (T x) with (sy := sy) (e := e) as (T1 & _ & _); [rewrite Ex; apply in_app_iff; right; now left|exact El|].
  assert (Sp : reg_sorted (recordCuts symw (ireg t1) p)) by (now apply recordCuts_sorted).
  destruct (build_bset V vz _ no_hints_sorted e T1 [] 0 eq_refl) as (n1 & E2 & _ & B1).
  destruct (build_bset V vz _ (hints_sorted _ Sp) e T1 [] 0 eq_refl) as (n2 & E3 & _ & B2).
  cbn [app] in E2, E3. rewrite E2 in B. rewrite E3. apply B1 in B. apply B2. destruct B as (j & Bj & ->). exists j. split; [|reflexivity].
  revert Bj. apply bset_mono. intros pp d Id. rewrite splits_none in Id. destruct Id.
Qed.
End E.

(** Every node of a port respects the slice boundaries of its actual. *)
Section W.
Context {V : Type}.
Variable pats : list str.
Variable vz : V.
Variable visit : expr V -> list path.
Variable sykind : nat -> skind.
Variable nm : nat -> str.
Variable backrefs : nat -> list nat.
Variable behind : nat -> nat -> list ipath.
Variable symw : nat -> N.
Variable resolveBits : bool.
Lemma grid own tops evs t t' i port o x sy e m lo hi c :
  traverse pats true own tops = Some evs -> NoDup (flat_map ids tops) -> ~ In own (flat_map ids tops) ->
  run_evs true vz visit sykind nm backrefs behind symw resolveBits t evs = DOk t' -> reg_sorted (ireg t) ->
  (forall m b, ~ In (m, BPort port b) (bnodes (ibld t))) ->
  (forall j q o x, In (VConn j q o x) evs -> cuts_ok symw x) ->
  (forall j int ds, In (VPort j port int ds) evs -> j = i /\ int = Some sy /\ ascending ds) ->
  In (VConn i port o x) evs -> eligible x sy e ->
  In (m, BPort port (zrange lo hi)) (bnodes (ibld t')) -> boundary (build vz no_hints e []) c -> c < ew e -> ~ lo < c <= hi.
Proof.
  intros Tr N No R S Nn T Wf Ic El In_ B L Lc.
  change (traverse pats true own tops) with (handle pats true own (YScope tops)) in Tr.
  pose proof (proj2 (handle_spec pats true (YScope tops) own) evs Tr) as Sp.
  destruct (node_from _ _ _ _ _ _ _ _ _ _ _ _ _ _ R In_) as [J|(l1 & ev & l2 & t1 & t2 & Q & R1 & R2 & F & J)]; [exact (Nn _ _ J)|].
  destruct F as (j & int & ds & ->). destruct (Wf j int ds) as (-> & -> & A); [rewrite Q; apply in_app_iff; right; now left|].
  assert (Ki : In i (ids (YScope tops))) by (eapply (conn_owner pats true own); [apply Sp; exact Ic|reflexivity]).
  destruct (handle_led pats _ _ _ Tr l1 (VPort i port (Some sy) ds) l2 Q) as [Oi|(xs & Ix)].
  { cbn in Oi. apply No. rewrite <- Oi. exact Ki. }
  cbn [owner] in Ix. apply in_app_iff in Ix. destruct Ix as [Ix|[Ix|[]]]; [|discriminate].
  destruct (conn_cuts pats own (YScope tops) _ (proj1 (Sp _) Ic) _ _ _ _ eq_refl) as (xs' & Mx & Ixx).
  assert (Mc : emits pats true own (YScope tops) (VCuts i xs)) by (apply Sp; rewrite Q; apply in_app_iff; now left).
  pose proof (cuts_unique pats true own _ _ Mc i xs eq_refl N No xs' Mx) as Eq. subst xs'.
  apply in_split in Ix. destruct Ix as (a & b & ->).
  assert (Tx : forall x0, In x0 xs -> cuts_ok symw x0).
  { intros x0 I0. clear - Sp T Mc I0. assert (K : exists j q o, emits pats true own (YScope tops) (VConn j q o x0)).
    { revert Mc I0. generalize (YScope tops). intros y0 M. remember (VCuts i xs) as ev eqn:Qe. clear Sp. revert Qe. induction M; intros Qe I0; try discriminate.
      - destruct (IHM Qe I0) as (j & q & o' & M0). exists j, q, o'. eapply em_gen; eauto.
      - destruct (IHM Qe I0) as (j & q & o' & M0). exists j, q, o'. eapply em_scope; eauto.
      - injection Qe as <- <-. unfold port_conns in I0. apply in_flat_map in I0. destruct I0 as (z & Iz & J0). destruct z; try (now destruct J0).
        destruct J0 as [<-|[]]. exists i0, port, output. now constructor.
      - destruct (IHM Qe I0) as (j & q & o' & M0). exists j, q, o'. eapply em_body; eauto. }
    destruct K as (j & q & o' & M0). eapply T. apply Sp. exact M0. }
  assert (Kn : In (N.of_nat c) (regl (ireg t1) sy)).
  { eapply (cuts_known true vz); eauto. lia. }
  pose proof (run_sorted _ _ _ _ _ _ _ _ _ _ _ _ R1 S) as S1.
  cbn [M_Inst.run_ev] in R2. destruct (materializePortNodes (port_hints true (ireg t1)) (ibld t1) port (Some sy) ds) as [s'|] eqn:Em; cbn in R2; [|discriminate].
  injection R2 as <-. cbn [ibld] in J. cbn [port_hints] in Em.
  destruct (materialize_nodes (hints_of (ireg t1)) (ibld t1) port sy ds s' A) as (new & E1 & _ & _ & _ & G & _).
  { intros hs Qh. exact (hints_sorted _ S1 _ _ Qh). }
  { exact Em. }
  rewrite E1, skipn_app, Nat.sub_diag, skipn_all in J. cbn in J.
  destruct (G _ _ J) as (lo' & hi' & a0 & b0 & y & Q' & _ & _ & _ & _ & _ & Nh). unfold zrange in Q'. injection Q' as Q1 Q2.
  assert (lo' = lo) by lia. assert (hi' = hi) by lia. subst lo' hi'.
  apply hints_in in Kn. destruct Kn as (hs & Hh & Ih). exact (Nh hs c Hh Ih Lc).
Qed.
End W.
