(** Proofs about the pending R-value queue. *)
From Verif Require Import Base M_Graph S_Graph P_Graph M_Range M_Netlist M_Annot S_Annot P_Annot
  M_Interval M_Heap M_Drivers M_Pending S_Pending.

(** ** The effect of one dependency on one pair *)
Definition deq (a b : nat) (d : dep) : bool := Nat.eqb (dsrc d) a && Nat.eqb (dtgt d) b.
Definition nz (l : list eattr) : list eattr := match l with [] => [default_attr] | _ => l end.
Section Ann.
Variable nl0 : netlist.
Definition astep (l : list eattr) (d : dep) : option (list eattr) :=
  match d with
  | DPlain _ _ => Some (nz l)
  | DDep a _ sy r k => ann_dep l sy (edgeBounds nl0 a r) k
  end.
Fixpoint arun (l : list eattr) (ds : list dep) : option (list eattr) :=
  match ds with [] => Some l | d :: r => match astep l d with Some l' => arun l' r | None => None end end.
Definition onp (a b : nat) (ds : list dep) := filter (deq a b) ds.
End Ann.

Lemma deq_true a b d : deq a b d = true <-> dsrc d = a /\ dtgt d = b.
Proof. unfold deq. rewrite andb_true_iff, !Nat.eqb_eq. tauto. Qed.
Lemma deq_false a b d : deq a b d = false <-> (dsrc d, dtgt d) <> (a, b).
Proof.
  unfold deq. rewrite andb_false_iff, !Nat.eqb_neq. split.
  - intros H E. injection E as <- <-. tauto.
  - intros H. destruct (Nat.eq_dec (dsrc d) a) as [E1|N]; [right|now left]. intros E2. apply H. congruence.
Qed.
Lemma onp_app a b x y : onp a b (x ++ y) = onp a b x ++ onp a b y.
Proof. apply filter_app. Qed.
Lemma arun_app nl0 x : forall l y, arun nl0 l (x ++ y) = match arun nl0 l x with Some m => arun nl0 m y | None => None end.
Proof. induction x as [|d x IH]; intros l y; cbn [app arun]; [reflexivity|]. destruct (astep nl0 l d); auto. Qed.
Lemma eb_ext nl nl0 a r : ninf nl = ninf nl0 -> edgeBounds nl a r = edgeBounds nl0 a r.
Proof. intros H. unfold edgeBounds. now rewrite H. Qed.

Lemma addPlain_nodes nl a b nl' : reachable thr (ng nl) -> addPlain nl a b = Some nl' ->
  hasNode (ng nl) a = true /\ hasNode (ng nl) b = true /\ forall n, hasNode (ng nl') n = hasNode (ng nl) n.
Proof.
  intros RG H. destruct (rep_of nl RG) as [s R]. unfold addPlain in H.
  destruct (nl_addEdge nl a b) as [[nl1 e]|] eqn:E; [|discriminate]. injection H as <-. cbn [fst].
  destruct (addEdge_inv _ _ _ _ _ _ R E) as (Ha & Hb & [[F ->]|(F & -> & ->)]).
  - auto.
  - split; [assumption|]. split; [assumption|]. intros n. apply hasNode_push.
Qed.

Lemma nl_addEdge_plain nl a b nl1 e : nl_addEdge nl a b = Some (nl1, e) -> addPlain nl a b = Some nl1.
Proof. intros H. unfold addPlain. now rewrite H. Qed.

Lemma dep_nodes nl a b sym r k nl' : reachable thr (ng nl) -> addDependency nl a b sym r k = Some nl' ->
  hasNode (ng nl) a = true /\ hasNode (ng nl) b = true /\ forall n, hasNode (ng nl') n = hasNode (ng nl) n.
Proof.
  intros RG H. unfold addDependency in H. destruct (nl_addEdge nl a b) as [[nl1 e]|] eqn:E; [|discriminate].
  pose proof (nl_addEdge_plain _ _ _ _ _ E) as HP.
  destruct (addPlain_nodes _ _ _ _ RG HP) as (Ha & Hb & HN). destruct (plain_ann _ _ _ _ RG HP) as (R1 & _).
  split; [assumption|]. split; [assumption|]. intros n.
  destruct (setVariable _ _ _) as [[x []]|]; try discriminate.
  - injection H as <-. apply HN.
  - unfold nl_addNewEdge, g_addNewEdge in H. rewrite !HN, Ha, Hb in H. cbn [andb] in H. unfold node_addNewEdge in H.
    pose proof (hasNode_push (ng nl1) a b n) as HP2.
    destruct (pushEdge thr (ng nl1) a b) as [g2 e2]. destruct (setVariable _ _ _) as [[y fl]|]; [|discriminate].
    injection H as <-. cbn [set_attr with_edge ng fst] in *. now rewrite HP2.
Qed.

Lemma dstep_nodes nl d nl' : reachable thr (ng nl) -> dstep nl d = Some nl' ->
  hasNode (ng nl) (dsrc d) = true /\ hasNode (ng nl) (dtgt d) = true /\ forall n, hasNode (ng nl') n = hasNode (ng nl) n.
Proof.
  intros RG H. destruct d; cbn [dstep dsrc dtgt] in *; [eapply addPlain_nodes|eapply dep_nodes]; eauto.
Qed.

Lemma dstep_ann nl0 nl d nl' : reachable thr (ng nl) -> ninf nl = ninf nl0 -> dstep nl d = Some nl' ->
  reachable thr (ng nl') /\ ninf nl' = ninf nl0 /\
  (forall a b, arun nl0 (pair_ann nl a b) (onp a b [d]) = Some (pair_ann nl' a b)).
Proof.
  intros RG NI H. unfold onp. cbn [filter]. destruct d as [x y|x y sy r k]; cbn [dstep] in H.
  - destruct (plain_ann _ _ _ _ RG H) as (R1 & N1 & P1 & P2). split; [assumption|]. split; [congruence|].
    intros a b. destruct (deq a b (DPlain x y)) eqn:D; cbn [arun astep].
    + apply deq_true in D. cbn in D. destruct D as [-> ->]. rewrite P1. unfold nz. destruct (pair_ann nl a b); reflexivity.
    + apply deq_false in D. cbn in D. f_equal. symmetry. apply P2. congruence.
  - destruct (dep_ann _ _ _ _ _ _ _ RG H) as (R1 & N1 & P1 & P2). split; [assumption|]. split; [congruence|].
    intros a b. destruct (deq a b (DDep x y sy r k)) eqn:D; cbn [arun astep].
    + apply deq_true in D. cbn in D. destruct D as [-> ->]. rewrite <- (eb_ext nl nl0) by assumption. now rewrite P1.
    + apply deq_false in D. cbn in D. f_equal. symmetry. apply P2. congruence.
Qed.

Lemma drun_ann nl0 : forall ds nl nl', reachable thr (ng nl) -> ninf nl = ninf nl0 -> drun nl ds = Some nl' ->
  reachable thr (ng nl') /\ ninf nl' = ninf nl0 /\
  (forall n, hasNode (ng nl') n = hasNode (ng nl) n) /\
  (forall d, In d ds -> hasNode (ng nl) (dsrc d) = true /\ hasNode (ng nl) (dtgt d) = true) /\
  (forall a b, arun nl0 (pair_ann nl a b) (onp a b ds) = Some (pair_ann nl' a b)).
Proof.
  induction ds as [|d ds IH]; intros nl nl' RG NI H; cbn [drun] in H.
  - injection H as <-. split; [assumption|]. split; [assumption|]. split; [reflexivity|]. split; [intros d []|]. reflexivity.
  - destruct (dstep nl d) as [nl1|] eqn:S; [|discriminate].
    destruct (dstep_ann nl0 _ _ _ RG NI S) as (R1 & N1 & P1). destruct (dstep_nodes _ _ _ RG S) as (Q1 & Q2 & Q3).
    destruct (IH _ _ R1 N1 H) as (A1 & A2 & A3 & A4 & A5).
    split; [assumption|]. split; [assumption|]. split; [intros n; now rewrite A3|]. split.
    + intros d' [<-|I]; [auto|]. rewrite <- !Q3. auto.
    + intros a b. change (d :: ds) with ([d] ++ ds). rewrite onp_app, arun_app, P1. apply A5.
Qed.

(** ** Threads with their own targets *)
Definition pe (nl : netlist) (a b : nat) : list edge := filter (to b) (outs (nst (ng nl) a)).

Definition POK (nl0 nl : netlist) (a b : nat) (todo : list dep) (c : pc) (l : list eattr) : Prop :=
  match todo, c with
  | DDep x y sy r k :: _, PSet e =>
      if Nat.eqb x a && Nat.eqb y b then pair_ann nl a b = nz l /\ exists es, pe nl a b = e :: es
      else pair_ann nl a b = l
  | DDep x y sy r k :: _, PNew =>
      if Nat.eqb x a && Nat.eqb y b
      then pair_ann nl a b = nz l /\ exists z ls z', nz l = z :: ls /\ setVariable z sy (edgeBounds nl0 x r) = Some (z', false)
      else pair_ann nl a b = l
  | DDep x y sy r k :: _, PSet2 e =>
      if Nat.eqb x a && Nat.eqb y b
      then (exists z ls z', nz l = z :: ls /\ setVariable z sy (edgeBounds nl0 x r) = Some (z', false)) /\
           pair_ann nl a b = nz l ++ [default_attr] /\ exists es, pe nl a b = es ++ [e]
      else pair_ann nl a b = l
  | _, _ => pair_ann nl a b = l
  end.

Definition owns (progs : nat -> list dep) (t b : nat) : Prop := exists d, In d (progs t) /\ dtgt d = b.

Record RI (nl0 : netlist) (progs : nat -> list dep) (s : rstate) : Prop := {
  ri_reach : reachable thr (ng (rnl s));
  ri_inf : ninf (rnl s) = ninf nl0;
  ri_nodes : forall n, hasNode (ng (rnl s)) n = hasNode (ng nl0) n;
  ri_th : forall t, exists D, progs t = D ++ fst (rth s t) /\
     forall a b, owns progs t b -> exists l, arun nl0 (pair_ann nl0 a b) (onp a b D) = Some l /\
       POK nl0 (rnl s) a b (fst (rth s t)) (snd (rth s t)) l;
  ri_free : forall a b, (forall t, ~ owns progs t b) -> pair_ann (rnl s) a b = pair_ann nl0 a b }.

Lemma RI_init nl progs : reachable thr (ng nl) -> RI nl progs (rinit nl progs).
Proof.
  intros R. constructor; cbn; auto. intros t. exists []. split; [reflexivity|]. intros a b _. exists (pair_ann nl a b).
  split; [reflexivity|]. destruct (progs t) as [|[]]; reflexivity.
Qed.

(** The pair is left alone. *)
Definition pair_same (nl nl' : netlist) (a b : nat) : Prop :=
  pair_ann nl' a b = pair_ann nl a b /\ pe nl' a b = pe nl a b.
Lemma POK_same nl0 nl nl' a b todo c l : pair_same nl nl' a b -> POK nl0 nl a b todo c l -> POK nl0 nl' a b todo c l.
Proof. intros [H1 H2]. unfold POK. now rewrite H1, H2. Qed.

Lemma POK_idle nl0 nl a b todo l : POK nl0 nl a b todo PIdle l <-> pair_ann nl a b = l.
Proof. destruct todo as [|[]]; reflexivity. Qed.

(** Atomic effects. *)
Lemma eff_add nl a b nl1 e : reachable thr (ng nl) -> nl_addEdge nl a b = Some (nl1, e) ->
  reachable thr (ng nl1) /\ ninf nl1 = ninf nl /\ (forall n, hasNode (ng nl1) n = hasNode (ng nl) n) /\
  pair_ann nl1 a b = nz (pair_ann nl a b) /\ (exists es, pe nl1 a b = e :: es) /\
  (forall a' b', (a', b') <> (a, b) -> pair_same nl nl1 a' b').
Proof.
  intros RG E. destruct (rep_of nl RG) as [s R].
  destruct (addEdge_inv _ _ _ _ _ _ R E) as (Ha & Hb & [[F ->]|(F & -> & ->)]).
  - split; [assumption|]. split; [reflexivity|]. split; [reflexivity|].
    destruct (head_find _ _ _ F) as [r Fr]. split; [unfold pair_ann; rewrite Fr; reflexivity|].
    split; [unfold pe; eauto|]. intros; split; reflexivity.
  - destruct (push_ann_pair nl s a b R) as (P1 & P2 & P3 & _). 
    destruct (push_ann nl a b s R) as (Q1 & Q2 & Q3 & Q4 & Q5 & Q6 & Q7 & Q8).
    apply find_none_filter in F.
    split; [now apply reach_push|]. split; [reflexivity|]. split; [intros; apply hasNode_push|].
    split; [rewrite P2; unfold pair_ann; now rewrite F|]. split; [unfold pe; rewrite P1, F; eexists; reflexivity|].
    intros a' b' N. split; [now apply P3|]. unfold pe, with_edge. cbn [ng].
    destruct (Nat.eq_dec a' a) as [->|NA]; [|now rewrite Q6].
    rewrite Q3, filter_app'. cbn [filter]. unfold to at 2. rewrite Q4.
    destruct (Nat.eqb_spec b b'); [congruence|apply app_nil_r].
Qed.

Lemma eff_new nl a b nl1 e : reachable thr (ng nl) -> nl_addNewEdge nl a b = Some (nl1, e) ->
  reachable thr (ng nl1) /\ ninf nl1 = ninf nl /\ (forall n, hasNode (ng nl1) n = hasNode (ng nl) n) /\
  pair_ann nl1 a b = pair_ann nl a b ++ [default_attr] /\ pe nl1 a b = pe nl a b ++ [e] /\
  (forall a' b', (a', b') <> (a, b) -> pair_same nl nl1 a' b').
Proof.
  intros RG E. destruct (rep_of nl RG) as [s R]. unfold nl_addNewEdge, g_addNewEdge in E.
  destruct (hasNode (ng nl) a) eqn:Ha; [|discriminate]. destruct (hasNode (ng nl) b) eqn:Hb; [|discriminate].
  cbn [andb] in E. unfold node_addNewEdge in E.
  destruct (push_ann_pair nl s a b R) as (P1 & P2 & P3 & _). 
  destruct (push_ann nl a b s R) as (Q1 & Q2 & Q3 & Q4 & Q5 & Q6 & Q7 & Q8).
  pose proof (reach_push (ng nl) a b RG Ha Hb) as RG2.
  pose proof (hasNode_push (ng nl) a b) as HN.
  destruct (pushEdge thr (ng nl) a b) as [g e1]. cbn [fst snd] in *. injection E as <- <-.
  split; [exact RG2|]. split; [reflexivity|]. split; [exact HN|].
  split; [exact P2|]. split; [exact P1|].
  intros a' b' N. split; [now apply P3|]. unfold pe, with_edge. cbn [ng].
  destruct (Nat.eq_dec a' a) as [->|NA]; [|now rewrite Q6].
  rewrite Q3, filter_app'. cbn [filter]. unfold to at 2. rewrite Q4.
  destruct (Nat.eqb_spec b b'); [congruence|apply app_nil_r].
Qed.

Lemma pe_in nl a b e : In e (pe nl a b) -> In e (outs (nst (ng nl) a)) /\ etgt e = b.
Proof. unfold pe. intros H. apply filter_In in H. unfold to in H. rewrite Nat.eqb_eq in H. exact H. Qed.

Lemma eff_set nl a b e x : reachable thr (ng nl) -> In e (pe nl a b) ->
  forall a' b', (a', b') <> (a, b) -> pair_same nl (set_attr nl e x) a' b'.
Proof.
  intros RG HI a' b' N. destruct (rep_of nl RG) as [s R]. apply pe_in in HI. destruct HI.
  split; [|reflexivity]. now apply (set_other nl s a b).
Qed.

Lemma setVar_default sy r x f : setVariable default_attr sy r = Some (x, f) -> f = true.
Proof. unfold setVariable. cbn. destruct sy; intros [= _ <-]; reflexivity. Qed.

Section Step.
Variables (nl0 : netlist) (progs : nat -> list dep).
Hypothesis OWN : own_targets progs.

(** A step that only touches the pair of the thread's own next dependency. *)
Lemma RI_frame s t d r c nl' todo' c' :
  RI nl0 progs s -> rth s t = (d :: r, c) ->
  reachable thr (ng nl') -> ninf nl' = ninf (rnl s) -> (forall n, hasNode (ng nl') n = hasNode (ng (rnl s)) n) ->
  (forall a b, (a, b) <> (dsrc d, dtgt d) -> pair_same (rnl s) nl' a b) ->
  ((todo' = d :: r /\ forall l, POK nl0 (rnl s) (dsrc d) (dtgt d) (d :: r) c l -> POK nl0 nl' (dsrc d) (dtgt d) (d :: r) c' l) \/
   (todo' = r /\ c' = PIdle /\ forall l, POK nl0 (rnl s) (dsrc d) (dtgt d) (d :: r) c l -> astep nl0 l d = Some (pair_ann nl' (dsrc d) (dtgt d)))) ->
  RI nl0 progs (rset s nl' t (todo', c')).
Proof.
  intros [I1 I2 I3 I4 I5] HT RG NI HN FR ST.
  assert (OT : owns progs t (dtgt d)).
  { destruct (I4 t) as (D & HD & _). rewrite HT in HD. exists d. split; [rewrite HD; apply in_app_iff; right; now left|reflexivity]. }
  constructor; cbn [rset rnl rth].
  - exact RG.
  - congruence.
  - intros n. now rewrite HN.
  - intros t'. destruct (Nat.eq_dec t' t) as [->|NT].
    + rewrite upd_same. cbn [fst snd]. destruct (I4 t) as (D & HD & HP). rewrite HT in HD, HP. cbn [fst snd] in HD, HP.
      destruct ST as [[-> ST]|(-> & -> & ST)].
      * exists D. split; [exact HD|]. intros a b OB. destruct (HP a b OB) as (l & A1 & A2). exists l. split; [exact A1|].
        destruct (Nat.eq_dec a (dsrc d)) as [Ea|Na]; [destruct (Nat.eq_dec b (dtgt d)) as [Eb|Nb]|].
        -- subst a b. now apply ST.
        -- assert (N : (a, b) <> (dsrc d, dtgt d)) by congruence. destruct (FR a b N) as [F1 F2].
           assert (PK : POK nl0 (rnl s) a b (d :: r) c l -> pair_ann (rnl s) a b = l).
           { unfold POK. destruct d as [x y|x y sy rg k]; [auto|]. cbn in N.
             assert (Nat.eqb x a && Nat.eqb y b = false) as -> by (apply (proj2 (deq_false a b (DDep x y sy rg k))); cbn; congruence).
             destruct c; auto. }
           apply PK in A2. unfold POK. destruct d as [x y|x y sy rg k]; [congruence|]. cbn in N.
           assert (Nat.eqb x a && Nat.eqb y b = false) as -> by (apply (proj2 (deq_false a b (DDep x y sy rg k))); cbn; congruence).
           destruct c'; congruence.
        -- assert (N : (a, b) <> (dsrc d, dtgt d)) by congruence. destruct (FR a b N) as [F1 F2].
           assert (PK : POK nl0 (rnl s) a b (d :: r) c l -> pair_ann (rnl s) a b = l).
           { unfold POK. destruct d as [x y|x y sy rg k]; [auto|]. cbn in N.
             assert (Nat.eqb x a && Nat.eqb y b = false) as -> by (apply (proj2 (deq_false a b (DDep x y sy rg k))); cbn; congruence).
             destruct c; auto. }
           apply PK in A2. unfold POK. destruct d as [x y|x y sy rg k]; [congruence|]. cbn in N.
           assert (Nat.eqb x a && Nat.eqb y b = false) as -> by (apply (proj2 (deq_false a b (DDep x y sy rg k))); cbn; congruence).
           destruct c'; congruence.
      * exists (D ++ [d]). split; [rewrite <- app_assoc; exact HD|]. intros a b OB. destruct (HP a b OB) as (l & A1 & A2).
        rewrite onp_app. setoid_rewrite arun_app. rewrite A1. unfold onp at 1. cbn [filter].
        destruct (deq a b d) eqn:DE.
        -- apply deq_true in DE. destruct DE as [<- <-]. cbn [arun]. rewrite (ST l A2). eexists. split; [reflexivity|]. now apply POK_idle.
        -- cbn [arun]. exists l. split; [reflexivity|]. apply POK_idle.
           assert (N : (a, b) <> (dsrc d, dtgt d)) by (apply deq_false in DE; congruence). destruct (FR a b N) as [F1 F2].
           rewrite F1. unfold POK in A2. destruct d as [x y|x y sy rg k]; [exact A2|].
           unfold deq in DE. cbn in DE. rewrite DE in A2. destruct c; exact A2.
    + rewrite upd_other by auto. destruct (I4 t') as (D & HD & HP). exists D. split; [exact HD|].
      intros a b OB. destruct (HP a b OB) as (l & A1 & A2). exists l. split; [exact A1|]. eapply POK_same; [|exact A2].
      apply FR. intros E. injection E as -> ->. destruct OB as (d1 & B1 & B2). destruct OT as (d2 & C1 & C2).
      apply NT. eapply OWN; eauto. congruence.
  - intros a b NO. rewrite <- I5 by assumption. apply FR. intros E. injection E as -> ->. now apply (NO t).
Qed.

Lemma RI_step s t s' : RI nl0 progs s -> rstep t s = Some s' -> RI nl0 progs s'.
Proof.
  intros I H. pose proof (ri_reach _ _ _ I) as RG. pose proof (ri_inf _ _ _ I) as NI. unfold rstep in H.
  destruct (rth s t) as [[|[a b|a b sy rg k] r] c] eqn:HT; [discriminate| |].
  - destruct (nl_addEdge (rnl s) a b) as [[nl1 e]|] eqn:E; [|discriminate]. injection H as <-.
    destruct (eff_add _ _ _ _ _ RG E) as (E1 & E2 & E3 & E4 & E5 & E6).
    eapply RI_frame; eauto. right. split; [reflexivity|]. split; [reflexivity|]. cbn. intros l Hl. rewrite E4, Hl. reflexivity.
  - assert (EQ : Nat.eqb a a && Nat.eqb b b = true) by now rewrite !Nat.eqb_refl.
    rewrite (eb_ext _ nl0 _ _ NI) in H. destruct c as [|e| |e].
    + destruct (nl_addEdge (rnl s) a b) as [[nl1 e]|] eqn:E; [|discriminate]. injection H as <-.
      destruct (eff_add _ _ _ _ _ RG E) as (E1 & E2 & E3 & E4 & E5 & E6).
      eapply RI_frame; eauto. left. split; [reflexivity|]. cbn [POK dsrc dtgt]. intros l Hl. rewrite EQ, E4, Hl. auto.
    + assert (PIN : forall l, POK nl0 (rnl s) a b (DDep a b sy rg k :: r) (PSet e) l ->
        pair_ann (rnl s) a b = nz l /\ exists es, pe (rnl s) a b = e :: es) by (intros l; cbn [POK]; now rewrite EQ).
      assert (EIN : exists l, POK nl0 (rnl s) a b (DDep a b sy rg k :: r) (PSet e) l).
      { destruct (ri_th _ _ _ I t) as (D & HD & HP). rewrite HT in HD, HP. destruct (HP a b) as (l & _ & Q).
        - exists (DDep a b sy rg k). split; [rewrite HD; apply in_app_iff; right; now left|reflexivity].
        - exists l. exact Q. }
      destruct EIN as [l0 EIN]. destruct (PIN _ EIN) as (_ & es & Hes).
      assert (HD0 : eatt (rnl s) (eid e) :: map (fun e => eatt (rnl s) (eid e)) es = pair_ann (rnl s) a b)
        by (unfold pair_ann; fold (pe (rnl s) a b); now rewrite Hes).
      assert (EIN' : In e (pe (rnl s) a b)) by (rewrite Hes; now left).
      destruct (setVariable (eatt (rnl s) (eid e)) sy (edgeBounds nl0 a rg)) as [[x []]|] eqn:SV; [| |discriminate].
      * injection H as <-. eapply RI_frame; eauto; try reflexivity.
        -- intros a' b' N. now apply (eff_set (rnl s) a b).
        -- right. split; [reflexivity|]. split; [reflexivity|]. intros l Hl. apply PIN in Hl. destruct Hl as [Hl _].
           cbn [dsrc dtgt astep]. destruct (rep_of _ RG) as [st R]. rewrite (set_head (rnl s) st a b e es _ R) by exact Hes.
           rewrite <- HD0 in Hl. destruct l as [|z l]; cbn [nz] in Hl; cbn [ann_dep].
           ++ injection Hl as Q1 Q2. rewrite <- Q1, SV, Q2. reflexivity.
           ++ injection Hl as Q1 Q2. rewrite <- Q1, SV, Q2. reflexivity.
      * injection H as <-. eapply RI_frame; eauto; try reflexivity.
        -- intros a' b' N. split; reflexivity.
        -- left. split; [reflexivity|]. intros l Hl. apply PIN in Hl. destruct Hl as [Hl _]. cbn [POK dsrc dtgt]. rewrite EQ.
           split; [exact Hl|]. rewrite <- Hl, <- HD0. eauto.
    + destruct (nl_addNewEdge (rnl s) a b) as [[nl1 e]|] eqn:E; [|discriminate]. injection H as <-.
      destruct (eff_new _ _ _ _ _ RG E) as (E1 & E2 & E3 & E4 & E5 & E6).
      eapply RI_frame; eauto. left. split; [reflexivity|]. cbn [POK dsrc dtgt]. intros l Hl. rewrite EQ in *. destruct Hl as [Hl H2].
      split; [exact H2|]. rewrite E4, Hl. split; [reflexivity|]. eauto.
    + assert (PIN : forall l, POK nl0 (rnl s) a b (DDep a b sy rg k :: r) (PSet2 e) l ->
        (exists z ls z', nz l = z :: ls /\ setVariable z sy (edgeBounds nl0 a rg) = Some (z', false)) /\
           pair_ann (rnl s) a b = nz l ++ [default_attr] /\ exists es, pe (rnl s) a b = es ++ [e]) by (intros l; cbn [POK]; now rewrite EQ).
      assert (EIN : exists l, POK nl0 (rnl s) a b (DDep a b sy rg k :: r) (PSet2 e) l).
      { destruct (ri_th _ _ _ I t) as (D & HD & HP). rewrite HT in HD, HP. destruct (HP a b) as (l & _ & Q).
        - exists (DDep a b sy rg k). split; [rewrite HD; apply in_app_iff; right; now left|reflexivity].
        - exists l. exact Q. }
      destruct EIN as [l0 EIN]. destruct (PIN _ EIN) as (_ & AN & es & Hes).
      assert (HD0 : map (fun e => eatt (rnl s) (eid e)) es ++ [eatt (rnl s) (eid e)] = pair_ann (rnl s) a b)
        by (unfold pair_ann; fold (pe (rnl s) a b); rewrite Hes, map_app; reflexivity).
      rewrite AN in HD0. apply app_inj_tail in HD0. destruct HD0 as [HD1 HD2]. rewrite HD2 in H.
      assert (EIN' : In e (pe (rnl s) a b)) by (rewrite Hes; apply in_app_iff; right; now left).
      destruct (setVariable default_attr sy (edgeBounds nl0 a rg)) as [[x f]|] eqn:SV; [|discriminate].
      injection H as <-. eapply RI_frame; eauto; try reflexivity.
      * intros a' b' N. now apply (eff_set (rnl s) a b).
      * right. split; [reflexivity|]. split; [reflexivity|]. intros l Hl. apply PIN in Hl. destruct Hl as ((z & ls & z' & Z1 & Z2) & A3 & _).
        rewrite AN in A3. apply app_inj_tail in A3. destruct A3 as [A3 _]. rewrite A3 in HD1.
        cbn [dsrc dtgt astep]. destruct (rep_of _ RG) as [st R]. rewrite (set_last (rnl s) st a b e es _ R) by exact Hes.
        rewrite HD1. destruct l as [|y l]; cbn [nz] in Z1.
        -- injection Z1 as <- <-. apply setVar_default in Z2. discriminate.
        -- injection Z1 as <- <-. cbn [ann_dep nz app]. rewrite Z2, SV. reflexivity.
Qed.

Lemma RI_exec sched : forall s s', RI nl0 progs s -> rexec sched s = Some s' -> RI nl0 progs s'.
Proof.
  induction sched as [|t r IH]; intros s s' I H; cbn [rexec] in H; [now injection H as <-|].
  destruct (rstep t s) as [s1|] eqn:E; [|discriminate]. eapply IH; [|exact H]. eapply RI_step; eauto.
Qed.

Lemma RI_done s : RI nl0 progs s -> rdone s ->
  (forall t a b, owns progs t b -> arun nl0 (pair_ann nl0 a b) (onp a b (progs t)) = Some (pair_ann (rnl s) a b)) /\
  (forall a b, (forall t, ~ owns progs t b) -> pair_ann (rnl s) a b = pair_ann nl0 a b).
Proof.
  intros I DN. split; [|exact (ri_free _ _ _ I)]. intros t a b OB. destruct (ri_th _ _ _ I t) as (D & HD & HP).
  rewrite (DN t), app_nil_r in HD. destruct (HP a b OB) as (l & A1 & A2). rewrite (DN t) in A2. cbn in A2. congruence.
Qed.

(** A thread with work left can always move, if a run of its whole program exists. *)
Lemma RI_progress s t : RI nl0 progs s -> fst (rth s t) <> [] ->
  (forall d, In d (progs t) -> hasNode (ng nl0) (dsrc d) = true /\ hasNode (ng nl0) (dtgt d) = true) ->
  (forall a b, arun nl0 (pair_ann nl0 a b) (onp a b (progs t)) <> None) ->
  rstep t s <> None.
Proof.
  intros I NE HN HA. pose proof (ri_reach _ _ _ I) as RG. pose proof (ri_inf _ _ _ I) as NI.
  destruct (ri_th _ _ _ I t) as (D & HD & HP). unfold rstep.
  destruct (rth s t) as [[|d r] c] eqn:HT; [now cbn in NE|]. cbn [fst snd] in *.
  assert (IND : In d (progs t)) by (rewrite HD; apply in_app_iff; right; now left).
  destruct (HN d IND) as [N1 N2]. rewrite <- (ri_nodes _ _ _ I) in N1, N2.
  assert (ADD : nl_addEdge (rnl s) (dsrc d) (dtgt d) <> None).
  { unfold nl_addEdge, g_addEdge. rewrite N1, N2. cbn [andb].
    destruct (node_addEdge _ _ _ _) as [g e]. discriminate. }
  assert (NEW : nl_addNewEdge (rnl s) (dsrc d) (dtgt d) <> None).
  { unfold nl_addNewEdge, g_addNewEdge. rewrite N1, N2. cbn [andb].
    destruct (node_addNewEdge _ _ _ _) as [g e]. discriminate. }
  destruct d as [a b|a b sy rg k]; cbn [dsrc dtgt] in *.
  - destruct (nl_addEdge (rnl s) a b) as [[]|]; congruence.
  - assert (EQ : Nat.eqb a a && Nat.eqb b b = true) by now rewrite !Nat.eqb_refl.
    destruct (HP a b) as (l & A1 & A2); [exists (DDep a b sy rg k); auto|].
    assert (AD : ann_dep l sy (edgeBounds nl0 a rg) k <> None).
    { intros Q. apply (HA a b). rewrite HD, onp_app, arun_app, A1. unfold onp. cbn [filter]. unfold deq at 1. cbn [dsrc dtgt].
      rewrite EQ. cbn [arun astep]. now rewrite Q. }
    rewrite (eb_ext _ nl0 _ _ NI). destruct c as [|e| |e].
    + destruct (nl_addEdge (rnl s) a b) as [[]|]; congruence.
    + cbn [POK] in A2. rewrite EQ in A2. destruct A2 as (P1 & es & P2). unfold pair_ann in P1. fold (pe (rnl s) a b) in P1.
      rewrite P2 in P1. cbn [map] in P1. unfold ann_dep in AD. destruct l as [|z l]; cbn [nz] in P1; injection P1 as Q1 Q2; rewrite Q1.
      * destruct (setVariable default_attr sy _) as [[x []]|]; congruence.
      * destruct (setVariable z sy _) as [[x []]|]; congruence.
    + destruct (nl_addNewEdge (rnl s) a b) as [[]|]; congruence.
    + cbn [POK] in A2. rewrite EQ in A2. destruct A2 as ((z & ls & z' & Z1 & Z2) & P1 & es & P2).
      unfold pair_ann in P1. fold (pe (rnl s) a b) in P1. rewrite P2, map_app in P1. cbn [map] in P1.
      apply app_inj_tail in P1. destruct P1 as [_ ->]. unfold ann_dep in AD.
      destruct l as [|y l]; cbn [nz] in Z1; injection Z1 as <- <-.
      * apply setVar_default in Z2. discriminate.
      * rewrite Z2 in AD. destruct (setVariable default_attr sy _) as [[x f]|]; congruence.
Qed.
End Step.
