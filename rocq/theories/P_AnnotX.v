(** Proofs about edge annotations: what is annotated was asked for, and adding dependencies with
    small bit indices succeeds. *)
From Verif Require Import Base M_Graph S_Graph P_Graph M_Range M_Netlist M_Annot S_Annot P_Annot
  M_Interval M_Heap M_Drivers M_Pending S_Pending P_Pending P_Drivers.

Section Inv.
(** [G x i]: bit [i] may be annotated with [x]. *)
Variable G : option str -> Z -> Prop.
Definition fine (l : list eattr) : Prop := forall x, In x l -> forall i, bit_in (abounds x) i -> G (asym x) i.
Lemma setVariable_inv x sy eb y fl : setVariable x sy eb = Some (y, fl) -> (forall i, bit_in eb i -> G sy i) ->
  (forall i, bit_in (abounds x) i -> G (asym x) i) -> forall i, bit_in (abounds y) i -> G (asym y) i.
Proof.
  unfold setVariable. destruct (match asym x, sy with Some p, Some q => str_eqb p q | _, _ => false end) eqn:Sm.
  - destruct (isContiguousWith (abounds x) eb) as [[]|] eqn:Co; try discriminate; [|intros [= <- <-]; auto].
    unfold unionWith. rewrite Co. intros [= <- <-] H1 H2 i B. cbn [abounds asym] in *.
    assert (E : asym x = sy). { destruct (asym x) as [p|], sy as [q|]; try discriminate. f_equal. now apply str_eqb_eq. }
    unfold isContiguousWith, add32 in Co. destruct (is_int32 (upper (abounds x) + 1)); [|discriminate].
    destruct (Z.leb_spec (lower eb) (upper (abounds x) + 1)) as [L1|]; [|discriminate]. destruct (is_int32 (upper eb + 1)); [|discriminate].
    destruct (Z.leb_spec (lower (abounds x)) (upper eb + 1)) as [L2|]; [|discriminate].
    set (u := Z.min (lower (abounds x)) (lower eb)) in *. set (v := Z.max (upper (abounds x)) (upper eb)) in *.
    unfold bit_in in *. change (lower (Range u v)) with (Z.min u v) in B. change (upper (Range u v)) with (Z.max u v) in B.
    pose proof (lower_upper (abounds x)). pose proof (lower_upper eb).
    destruct (Z_le_dec (lower eb) i) as [A1|A1]; destruct (Z_le_dec i (upper eb)) as [A2|A2]; [rewrite E; apply H1; lia|apply H2|apply H2|apply H2]; lia.
  - intros [= <- <-] H1 H2. exact H1.
Qed.
Lemma ann_dep_inv l sy eb k l' : ann_dep l sy eb k = Some l' -> (forall i, bit_in eb i -> G sy i) -> fine l -> fine l'.
Proof.
  unfold ann_dep. intros E H F. destruct l as [|x l].
  - cbn in E. destruct sy; injection E as <-; intros y [<-|[]]; exact H.
  - destruct (setVariable x sy eb) as [[y []]|] eqn:Sv; [| |discriminate].
    + injection E as <-. intros z [<-|I]; [|apply F; now right]. intros i B.
      apply (setVariable_inv _ _ _ _ _ Sv H (F x (or_introl eq_refl)) i B).
    + assert (Ed : setVariable default_attr sy eb = Some (EAttr EKNone sy eb false, true)) by (now destruct sy).
      rewrite Ed in E. injection E as <-. intros z [<-|I]; [apply F; now left|]. apply in_app_or in I. destruct I as [I|[<-|[]]]; [apply F; now right|exact H].
Qed.
Hypothesis G0 : G None 0%Z.
Lemma nz_inv l : fine l -> fine (nz l).
Proof. intros F. destruct l; [|exact F]. intros x [<-|[]] i B. unfold bit_in in B. cbn in *. assert (i = 0)%Z by lia. now subst i. Qed.
Lemma edge_bits nl a r i : bit_in (edgeBounds nl a r) i -> bit_in r i.
Proof.
  unfold edgeBounds. destruct (nbounds (ninf nl a)) as [nb|]; [|auto]. destruct (overlaps r nb) eqn:O; [|auto].
  unfold overlaps in O. apply andb_prop in O. destruct O as [O1 O2]. apply Z.leb_le in O1, O2.
  pose proof (lower_upper r). pose proof (lower_upper nb). unfold bit_in.
  set (u := Z.max (lower r) (lower nb)). set (v := Z.min (upper r) (upper nb)). change (lower (Range u v)) with (Z.min u v). change (upper (Range u v)) with (Z.max u v). lia.
Qed.
Lemma arun_inv nl0 : forall ds l l', arun nl0 l ds = Some l' -> (forall a b sy r k, In (DDep a b sy r k) ds -> forall i, bit_in r i -> G sy i) -> fine l -> fine l'.
Proof.
  induction ds as [|d ds IH]; intros l l' E H F; cbn [arun] in E; [injection E as <-; exact F|].
  destruct (astep nl0 l d) as [m|] eqn:Ea; [|discriminate]. apply (IH m l' E); [intros a b sy r k I; apply (H a b sy r k); now right|].
  destruct d as [a b|a b sy r k]; cbn [astep] in Ea.
  - injection Ea as <-. now apply nz_inv.
  - eapply ann_dep_inv; eauto. intros i B. eapply H; [now left|]. eapply edge_bits; eauto.
Qed.
End Inv.

(** * Success *)
Definition small (r : range) : Prop := (0 <= lower r /\ upper r < int32_max)%Z.
Lemma setVariable_total x sy eb : small (abounds x) -> small eb -> setVariable x sy eb <> None.
Proof.
  intros [A1 A2] [B1 B2]. unfold setVariable. pose proof (lower_upper (abounds x)). pose proof (lower_upper eb).
  assert (I1 : is_int32 (upper (abounds x) + 1) = true) by (unfold is_int32, int32_min, int32_max in *; apply andb_true_iff; split; apply Z.leb_le; lia).
  assert (I2 : is_int32 (upper eb + 1) = true) by (unfold is_int32, int32_min, int32_max in *; apply andb_true_iff; split; apply Z.leb_le; lia).
  destruct (match asym x, sy with Some p, Some q => str_eqb p q | _, _ => false end); [|discriminate].
  unfold unionWith, isContiguousWith, add32. rewrite I1, I2. destruct (lower eb <=? upper (abounds x) + 1)%Z; [|discriminate].
  destruct (lower (abounds x) <=? upper eb + 1)%Z; discriminate.
Qed.
Lemma default_total sy eb : exists x, setVariable default_attr sy eb = Some (x, true).
Proof. destruct sy; eexists; reflexivity. Qed.
Lemma addEdge_total nl a b : hasNode (ng nl) a = true -> hasNode (ng nl) b = true -> nl_addEdge nl a b <> None.
Proof. intros A B. unfold nl_addEdge, g_addEdge. rewrite A, B. cbn [andb]. destruct (node_addEdge _ _ _ _). discriminate. Qed.
Lemma addNewEdge_total nl a b : hasNode (ng nl) a = true -> hasNode (ng nl) b = true -> exists x, nl_addNewEdge nl a b = Some x.
Proof. intros A B. unfold nl_addNewEdge, g_addNewEdge. rewrite A, B. cbn [andb]. destruct (node_addNewEdge _ _ _ _). eauto. Qed.
Lemma dstep_total nl d : reachable thr (ng nl) -> hasNode (ng nl) (dsrc d) = true -> hasNode (ng nl) (dtgt d) = true ->
  (forall x, In x (pair_ann nl (dsrc d) (dtgt d)) -> small (abounds x)) -> (forall a b sy r k, d = DDep a b sy r k -> small r) -> dstep nl d <> None.
Proof.
  intros RG Ha Hb Sm Sr. destruct d as [a b|a b sy r k]; cbn [dsrc dtgt dstep] in *.
  - unfold addPlain. pose proof (addEdge_total nl a b Ha Hb). destruct (nl_addEdge nl a b); [discriminate|congruence].
  - unfold addDependency. pose proof (addEdge_total nl a b Ha Hb) as T. destruct (nl_addEdge nl a b) as [[nl1 e]|] eqn:E; [|congruence].
    destruct (rep_of nl RG) as [s R]. destruct (addPlain_nodes _ _ _ _ RG (nl_addEdge_plain _ _ _ _ _ E)) as (_ & _ & Hn).
    assert (Se : small (abounds (eatt nl1 (eid e)))).
    { destruct (addEdge_inv _ _ _ _ _ _ R E) as (_ & _ & [[F ->]|(F & -> & ->)]).
      - apply Sm. unfold pair_ann. apply (in_map (fun e => eatt nl (eid e))). apply find_some in F. now apply filter_In.
      - unfold with_edge. cbn [eatt]. assert (Q : eid (snd (pushEdge thr (ng nl) a b)) = nexte (ng nl)) by reflexivity. rewrite Q, Nat.ltb_irrefl, upd_same.
        unfold small, int32_max. cbn. lia. }
    assert (Sb : small (edgeBounds nl a r)).
    { pose proof (Sr a b sy r k eq_refl) as [S1 S2]. assert (L := lower_upper (edgeBounds nl a r)).
      destruct (edge_bits nl a r (lower (edgeBounds nl a r))) as [B1 _]; [unfold bit_in; lia|].
      destruct (edge_bits nl a r (upper (edgeBounds nl a r))) as [_ B2]; [unfold bit_in; lia|]. split; lia. }
    pose proof (setVariable_total _ sy _ Se Sb) as T1. destruct (setVariable (eatt nl1 (eid e)) sy (edgeBounds nl a r)) as [[x []]|]; [discriminate| |congruence].
    destruct (addNewEdge_total nl1 a b) as ([nl2 e2] & E2); [now rewrite Hn|now rewrite Hn|]. rewrite E2.
    assert (E3 : eatt nl2 (eid e2) = default_attr).
    { unfold nl_addNewEdge, g_addNewEdge in E2. rewrite !Hn, Ha, Hb in E2. cbn [andb] in E2. unfold node_addNewEdge in E2.
      destruct (pushEdge thr (ng nl1) a b) as [g2 e3] eqn:P. assert (Q : eid e3 = nexte (ng nl1)) by (unfold pushEdge in P; now inversion P). injection E2 as <- <-.
      unfold with_edge. cbn [eatt]. now rewrite Q, Nat.ltb_irrefl, upd_same. }
    rewrite E3. destruct (default_total sy (edgeBounds nl a r)) as (y & ->). discriminate.
Qed.
(** [small] of every attribute is kept. *)
Lemma drun_total : forall ds nl, reachable thr (ng nl) -> (forall d, In d ds -> hasNode (ng nl) (dsrc d) = true /\ hasNode (ng nl) (dtgt d) = true) ->
  (forall a b x, In x (pair_ann nl a b) -> small (abounds x)) -> (forall a b sy r k, In (DDep a b sy r k) ds -> small r) -> exists nl', drun nl ds = Some nl'.
Proof.
  induction ds as [|d ds IH]; intros nl RG Hn Sm Sr; cbn [drun]; [eauto|].
  destruct (Hn d (or_introl eq_refl)) as [Ha Hb].
  assert (T : dstep nl d <> None). { apply dstep_total; [exact RG|exact Ha|exact Hb|intros x I; eapply Sm; eauto|]. intros a b sy r k ->. eapply Sr. left. reflexivity. }
  destruct (dstep nl d) as [nl1|] eqn:E; [|congruence]. destruct (dstep_nodes _ _ _ RG E) as (_ & _ & N1).
  destruct (dstep_ann nl nl d nl1 RG eq_refl E) as (R1 & _ & A). apply IH; auto.
  - intros x I. rewrite !N1. apply Hn. now right.
  - intros a b. assert (F : fine (fun _ i => 0 <= i < int32_max)%Z (pair_ann nl1 a b)).
    { refine (arun_inv (fun _ i => (0 <= i < int32_max)%Z) _ nl _ _ _ (A a b) _ _); [unfold int32_max; lia| |].
      - intros a' b' sy r k I i B. unfold onp in I. apply filter_In in I. destruct I as [[->|[]] _]. destruct (Sr a' b' sy r k (or_introl eq_refl)). unfold bit_in in B. lia.
      - intros x I i B. destruct (Sm a b x I). unfold bit_in in B. lia. }
    intros x I. pose proof (lower_upper (abounds x)) as L. destruct (F x I (lower (abounds x))) as [F1 _]; [unfold bit_in; lia|].
    destruct (F x I (upper (abounds x))) as [_ F2]; [unfold bit_in; lia|]. split; assumption.
  - intros a b sy r k I. eapply Sr. right. exact I.
Qed.
