(** Parallel resolution composed with the rest of the build: the connections of the result
    and the answers of the queries. *)
From Verif Require Import Base M_Graph M_Range M_Netlist M_DFS M_Path M_Cycle M_Annot M_Interval M_Heap M_Drivers M_Pending M_DFA M_Builder M_Slice M_Port M_Flow M_Proc
  S_Graph S_Reach S_Netlist S_Annot S_Pending S_Par P_Graph P_Annot P_Pending P_Pending2 P_Flow P_Flow5 P_Flow6 P_Flow8 P_Path P_Proc3 Properties_Path.

Lemma drun_app : forall ds es nl nl', drun nl (ds ++ es) = Some nl' -> exists nl0, drun nl ds = Some nl0 /\ drun nl0 es = Some nl'.
Proof.
  induction ds as [|d ds IH]; intros es nl nl' H; cbn [app drun] in *; [eauto|].
  destruct d as [a b|a b sy r k].
  all: match type of H with match ?x with _ => _ end = _ => destruct x as [y|]; [|discriminate] end; eauto.
Qed.

Lemma conn_pair nl a b : enabled (pair_ann nl a b) -> (Conn nl a b <-> has_edge nl a b).
Proof.
  intros En. unfold has_edge. split.
  - intros (e & Ie & T & _) Q. unfold pair_ann in Q. apply map_eq_nil in Q.
    assert (I : In e (filter (to b) (outs (nst (ng nl) a)))) by (apply filter_In; split; [exact Ie|unfold to; now apply Nat.eqb_eq]).
    rewrite Q in I. destruct I.
  - intros Ne. unfold pair_ann in *. destruct (filter (to b) (outs (nst (ng nl) a))) as [|e r] eqn:F; [now destruct Ne|].
    assert (Ie : In e (filter (to b) (outs (nst (ng nl) a)))) by (rewrite F; now left).
    apply filter_In in Ie. destruct Ie as [Ie T]. exists e. split; [exact Ie|]. split; [unfold to in T; now apply Nat.eqb_eq in T|].
    apply En. cbn. now left.
Qed.

Lemma par_connections s ds nl nl' : emit_all (bvt (fb s)) (bdm (fb s)) (bpend (fb s)) = DOk ds ->
  drun (empty_netlist s) (bdeps (fb s) ++ ds) = Some nl -> resolved_in_parallel s nl' ->
  WF nl' /\ same_connections nl' nl.
Proof.
  intros Em Dr (nl0 & addr & q' & blocks & progs & sched & st & Inj & D0 & SU & EX & DN & ->).
  destruct (drun_app _ _ _ _ Dr) as (n0 & D0' & D1). rewrite D0 in D0'. injection D0' as <-.
  assert (Rg : reachable outEdgeIndexThreshold (ng (empty_netlist s))) by apply mk_graph_reachable.
  assert (Pe : forall a b, pair_ann (empty_netlist s) a b = []) by (intros a b; unfold pair_ann; cbn [ng empty_netlist]; now rewrite no_edges).
  destruct (drun_ann _ _ _ _ Rg eq_refl D0) as (R0 & I0 & H0 & _ & A0).
  destruct (drun_ann _ _ _ _ R0 eq_refl D1) as (R1 & I1 & H1 & _ & A1).
  pose proof (setup_owns _ _ _ _ _ _ _ Inj SU) as OW.
  pose proof (RI_exec nl0 progs OW sched _ _ (RI_init nl0 progs R0) EX) as RI.
  destruct (RI_done nl0 progs _ RI DN) as [P1 P2].
  assert (En0 : forall a b, enabled (pair_ann nl0 a b)).
  { intros a b. eapply arun_enabled; [|exact (A0 a b)]. rewrite Pe. intros x []. }
  assert (En1 : forall a b, enabled (pair_ann nl a b)).
  { intros a b. eapply arun_enabled; [|exact (A1 a b)]. apply En0. }
  assert (Enp : forall a b, enabled (pair_ann (rnl st) a b)).
  { intros a b. destruct (owns_dec _ _ _ _ _ _ _ Inj SU b) as [[t OB]|NO]; [eapply arun_enabled; [|exact (P1 t a b OB)]; apply En0|]. rewrite P2 by assumption. apply En0. }
  split; [exact (c01 _ _ (ri_reach _ _ _ RI))|]. split; [|split].
  - intros n. rewrite <- !memb_In, <- !hasNode_memb. rewrite (ri_nodes _ _ _ RI), H1. tauto.
  - intros n. rewrite (ri_inf _ _ _ RI). now rewrite I1.
  - intros a b. rewrite (conn_pair _ _ _ (Enp a b)), (conn_pair _ _ _ (En1 a b)).
    rewrite (drun_edges _ _ _ a b R0 D1).
    destruct (emit_perm _ _ _ _ (ps_perm _ _ _ _ _ _ _ SU) _ Em) as (ds' & Em' & Pm).
    pose proof (setup_emit _ _ _ _ _ _ _ Inj SU) as Se. rewrite Em' in Se. injection Se as ->.
    assert (Q : (exists d, In d ds /\ dsrc d = a /\ dtgt d = b) <-> (exists t d, In d (progs t) /\ dsrc d = a /\ dtgt d = b)).
    { split.
      - intros (d & I & X). apply (Permutation_in _ Pm) in I. apply in_flat_map in I. destruct I as (t & _ & I). eauto.
      - intros (t & d & I & X). exists d. split; [|exact X]. apply (Permutation_in _ (Permutation_sym Pm)). apply in_flat_map. exists t. split; [|exact I].
        apply in_seq. destruct (le_lt_dec (length blocks) t) as [G|G]; [|lia]. rewrite (progs_end _ _ _ _ _ _ _ SU t G) in I. destruct I. }
    rewrite Q. unfold has_edge. destruct (owns_dec _ _ _ _ _ _ _ Inj SU b) as [[t OB]|NO].
    + rewrite (arun_nonempty _ _ _ _ (P1 t a b OB)). apply or_iff_compat_l. split.
      * intros N. destruct (onp a b (progs t)) as [|d r] eqn:F; [congruence|]. exists t, d.
        assert (I : In d (onp a b (progs t))) by (rewrite F; now left). apply filter_In in I. destruct I as [I D]. apply deq_true in D. tauto.
      * intros (t' & d & I & X & Y) Z. destruct OB as (d' & I' & Y'). assert (t' = t) as -> by (eapply OW; eauto; congruence).
        assert (J : In d (onp a b (progs t))) by (apply filter_In; split; [exact I|now apply deq_true]). rewrite Z in J. destruct J.
    + rewrite P2 by exact NO. split; [auto|]. intros [X|(t & d & I & X & Y)]; [exact X|]. exfalso. apply (NO t). exists d. auto.
Qed.

(** ** Queries *)
Lemma reach_iff {R R' : nat -> nat -> Prop} : (forall a b, R a b <-> R' a b) -> forall a b, Reach R a b <-> Reach R' a b.
Proof. intros H a b. split; induction 1; try constructor; eapply reach_step; eauto; now apply H. Qed.
Lemma reach1_iff {R R' : nat -> nat -> Prop} : (forall a b, R a b <-> R' a b) -> forall a b, Reach1 R a b <-> Reach1 R' a b.
Proof. intros H a b. split; intros (c & X & Y); exists c; (split; [now apply H|]); revert Y; now apply reach_iff. Qed.

Section Same.
Variables (nl nl' : netlist).
Hypothesis (W : WF nl) (W' : WF nl') (SC : same_connections nl nl').
Lemma same_comb a b : Comb nl a b <-> Comb nl' a b.
Proof. destruct SC as (_ & I & C). unfold Comb. rewrite (I b), (C a b). tauto. Qed.
Lemma same_back a b : CombBack nl a b <-> CombBack nl' a b.
Proof. destruct SC as (_ & I & C). unfold CombBack. rewrite (I b), (C b a). tauto. Qed.

Lemma same_fanin n : In n (gnodes (ng nl)) -> exists l l', getCombFanIn nl n = Some l /\ getCombFanIn nl' n = Some l' /\ same_set l l'.
Proof.
  intros I. destruct (c09_fanIn_exact nl n W I) as (l & E & _ & _ & S). pose proof (proj1 (proj1 SC n) I) as I'.
  destruct (c09_fanIn_exact nl' n W' I') as (l' & E' & _ & _ & S'). exists l, l'. split; [exact E|]. split; [exact E'|].
  intros m. rewrite S, S'. apply reach_iff, same_back.
Qed.
Lemma same_fanout n : In n (gnodes (ng nl)) -> exists l l', getCombFanOut nl n = Some l /\ getCombFanOut nl' n = Some l' /\ same_set l l'.
Proof.
  intros I. destruct (c09_fanOut_exact nl n W I) as (l & E & _ & _ & S). pose proof (proj1 (proj1 SC n) I) as I'.
  destruct (c09_fanOut_exact nl' n W' I') as (l' & E' & _ & _ & S'). exists l, l'. split; [exact E|]. split; [exact E'|].
  intros m. rewrite S, S'. apply reach_iff, same_comb.
Qed.
Lemma same_path a b : In a (gnodes (ng nl)) -> In b (gnodes (ng nl)) ->
  exists p p', pf_find nl a b = PPath p /\ pf_find nl' a b = PPath p' /\ (p = [] <-> p' = []).
Proof.
  intros I J. pose proof (proj1 (proj1 SC a) I) as I'. pose proof (proj1 (proj1 SC b) J) as J'. destruct (Nat.eq_dec a b) as [<-|N].
  - exists [], []. rewrite !c12_self_path_empty by assumption. tauto.
  - destruct (c12_path_complete_partial nl a b W I J N) as (p & E & H). destruct (c12_path_complete_partial nl' a b W' I' J' N) as (p' & E' & H').
    exists p, p'. split; [exact E|]. split; [exact E'|]. pose proof (reach1_iff (proj2 (proj2 SC)) a b) as R.
    destruct p, p'; split; intros Q; try reflexivity; try discriminate; exfalso.
    + apply (proj2 H); [apply R, H'; discriminate|reflexivity].
    + apply (proj2 H'); [apply R, H; discriminate|reflexivity].
Qed.
Lemma same_comb_path a b : In a (gnodes (ng nl)) -> In b (gnodes (ng nl)) ->
  exists p p', pf_findComb nl a b = PPath p /\ pf_findComb nl' a b = PPath p' /\ (p = [] <-> p' = []).
Proof.
  intros I J. pose proof (proj1 (proj1 SC a) I) as I'. pose proof (proj1 (proj1 SC b) J) as J'.
  destruct (c13_comb_path nl a b W I J) as (p & E & _ & H). destruct (c13_comb_path nl' a b W' I' J') as (p' & E' & _ & H').
  exists p, p'. split; [exact E|]. split; [exact E'|]. pose proof (reach_iff same_comb a b) as R.
  destruct p, p'; split; intros Q; try reflexivity; try discriminate; exfalso.
  + apply (proj2 H); [|reflexivity]. rewrite R. apply H'. discriminate.
  + apply (proj2 H'); [|reflexivity]. rewrite <- R. apply H. discriminate.
Qed.
Lemma same_loops : exists ls ls', getAllLoops nl = Some ls /\ getAllLoops nl' = Some ls' /\ (ls = [] <-> ls' = []) /\ same_set (concat ls) (concat ls').
Proof.
  destruct (c15_loops_complete nl W) as (ls & E & N & H). destruct (c15_loops_complete nl' W') as (ls' & E' & N' & H').
  exists ls, ls'. split; [exact E|]. split; [exact E'|]. pose proof (reach1_iff same_comb) as R. split.
  - rewrite N, N'. split; intros Q (n & X); apply Q; exists n; now apply R.
  - intros n. rewrite !in_concat. rewrite <- H, <- H'. apply R.
Qed.
End Same.

Lemma same_connections_sym nl nl' : same_connections nl nl' -> same_connections nl' nl.
Proof. intros (A & B & C). split; [|split]; intros; symmetry; auto. Qed.
