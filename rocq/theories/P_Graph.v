(** Proofs: the container refines the edge-list specification. *)
From Verif Require Import Base M_Graph S_Graph.

(** ** Index lemmas *)
Definition idx_ok (s : nstate) : Prop :=
  match oidx s with
  | None => True
  | Some m => forall b, idx_find m b = find (to b) (outs s)
  end.

Lemma idx_find_cons m b e x :
  idx_find ((b, e) :: m) x = if Nat.eqb b x then Some e else idx_find m x.
Proof. unfold idx_find; simpl. now destruct (Nat.eqb b x). Qed.

Lemma idx_find_erase m b x :
  idx_find (idx_erase m b) x = if Nat.eqb b x then None else idx_find m x.
Proof.
  unfold idx_erase. induction m as [|[k e] m IH]; simpl.
  - now destruct (Nat.eqb b x).
  - destruct (Nat.eqb_spec k b) as [->|Hk]; simpl.
    + rewrite IH, idx_find_cons. now destruct (Nat.eqb b x).
    + rewrite !idx_find_cons, IH. destruct (Nat.eqb_spec b x), (Nat.eqb_spec k x); congruence.
Qed.

Lemma idx_find_emplace m b e x :
  idx_find (idx_emplace m b e) x =
  match idx_find m x with Some e' => Some e' | None => if Nat.eqb b x then Some e else None end.
Proof.
  unfold idx_emplace. destruct (idx_find m b) eqn:E.
  - destruct (idx_find m x) eqn:F; [reflexivity|]. destruct (Nat.eqb_spec b x); congruence.
  - rewrite idx_find_cons. destruct (Nat.eqb_spec b x) as [->|]; [now rewrite E|].
    now destruct (idx_find m x).
Qed.

Lemma find_app {A} (p : A -> bool) l1 l2 :
  find p (l1 ++ l2) = match find p l1 with Some x => Some x | None => find p l2 end.
Proof. induction l1 as [|x l IH]; simpl; [reflexivity|]. now destruct (p x). Qed.

Lemma build_ok_gen es : forall m b,
  idx_find (fold_left (fun m e => idx_emplace m (etgt e) e) es m) b =
  match idx_find m b with Some e => Some e | None => find (to b) es end.
Proof.
  induction es as [|e es IH]; intros m b; simpl.
  - now destruct (idx_find m b).
  - rewrite IH, idx_find_emplace. unfold to at 2.
    destruct (idx_find m b); [reflexivity|]. now destruct (Nat.eqb (etgt e) b).
Qed.

Lemma build_ok es b : idx_find (buildOutEdgeIndex es) b = find (to b) es.
Proof. unfold buildOutEdgeIndex. rewrite build_ok_gen. reflexivity. Qed.

Lemma insert_ok thr idx es1 is1 b e :
  idx_ok (NState es1 is1 idx) -> etgt e = b ->
  idx_ok (NState (es1 ++ [e]) is1 (insertOutEdgeIndex thr idx (es1 ++ [e]) b e)).
Proof.
  intros H Hb. unfold idx_ok, insertOutEdgeIndex in *; simpl in *.
  destruct idx as [m|].
  - intros x. rewrite idx_find_emplace, H, find_app. simpl. unfold to at 3. rewrite Hb.
    destruct (find (to x) es1); [reflexivity|]. now destruct (Nat.eqb b x).
  - destruct (Nat.ltb thr _); [|exact I]. intros x. apply build_ok.
Qed.

Lemma lookup_ok s b : idx_ok s -> lookupOutEdge s b = find (to b) (outs s).
Proof. unfold idx_ok, lookupOutEdge. destruct (oidx s); auto. Qed.

(** ** Representation relation *)
Record Rep (g : graph) (s : mg) : Prop := {
  rep_nodes : gnodes g = mv s;
  rep_outs : forall a, outs (nst g a) = filter (from a) (mE s);
  rep_ins : forall b, ins (nst g b) = filter (to b) (mE s);
  rep_idx : forall a, idx_ok (nst g a);
  rep_nn : nextn g = mnn s;
  rep_ne : nexte g = mne s;
  rep_fresh_n : forall n, In n (mv s) -> n < mnn s;
  rep_nodup_n : NoDup (mv s);
  rep_fresh_e : forall e, In e (mE s) -> eid e < mne s;
  rep_ids : NoDup (map eid (mE s));
  rep_ends : forall e, In e (mE s) -> In (esrc e) (mv s) /\ In (etgt e) (mv s) }.

Lemma rep_empty : Rep empty_graph mg_empty.
Proof. constructor; simpl; try constructor; try tauto; intros; exact I. Qed.

Lemma memb_In n l : memb n l = true <-> In n l.
Proof.
  unfold memb. rewrite existsb_exists. split.
  - intros [x [Hx He]]. apply Nat.eqb_eq in He. now subst.
  - intros H. exists n. split; [assumption|apply Nat.eqb_refl].
Qed.

Lemma hasNode_memb g n : hasNode g n = memb n (gnodes g).
Proof.
  unfold hasNode, findNode. induction (gnodes g) as [|x l IH]; simpl; [reflexivity|].
  rewrite (Nat.eqb_sym n x). destruct (Nat.eqb x n); [reflexivity|].
  simpl. rewrite <- IH. now destruct (find_index n l).
Qed.

Lemma find_between E a b : find (to b) (filter (from a) E) = find (between a b) E.
Proof.
  rewrite !find_filter_hd, filter_filter. reflexivity.
Qed.

Lemma find_between' E a b : find (from a) (filter (to b) E) = find (between a b) E.
Proof.
  rewrite !find_filter_hd, filter_filter. f_equal. apply filter_ext. intros e.
  unfold to, from, between. apply andb_comm.
Qed.

Lemma filter_snoc {A} (p : A -> bool) l x :
  filter p (l ++ [x]) = if p x then filter p l ++ [x] else filter p l.
Proof. rewrite filter_app'. simpl. destruct (p x); [reflexivity|apply app_nil_r]. Qed.

Lemma pushEdge_outs thr g a b x :
  outs (nst (fst (pushEdge thr g a b)) x) =
  if Nat.eqb x a then outs (nst g x) ++ [Edge (nexte g) a b] else outs (nst g x).
Proof.
  unfold pushEdge, upd; simpl.
  destruct (Nat.eqb_spec x b), (Nat.eqb_spec x a); subst; simpl; try rewrite Nat.eqb_refl; simpl; try reflexivity.
  destruct (Nat.eqb_spec b a); [congruence|reflexivity].
Qed.

Lemma pushEdge_ins thr g a b x :
  ins (nst (fst (pushEdge thr g a b)) x) =
  if Nat.eqb x b then ins (nst g x) ++ [Edge (nexte g) a b] else ins (nst g x).
Proof.
  unfold pushEdge, upd; simpl.
  destruct (Nat.eqb_spec x b), (Nat.eqb_spec x a); subst; simpl; try rewrite Nat.eqb_refl; simpl; try reflexivity.
  destruct (Nat.eqb_spec b a); [congruence|reflexivity].
Qed.

Lemma idx_ok_ext s s' : outs s = outs s' -> oidx s = oidx s' -> idx_ok s -> idx_ok s'.
Proof. unfold idx_ok. intros <- <-. auto. Qed.

Lemma pushEdge_idx thr g a b :
  (forall x, idx_ok (nst g x)) -> forall x, idx_ok (nst (fst (pushEdge thr g a b)) x).
Proof.
  intros H x. unfold pushEdge; simpl. set (e := Edge (nexte g) a b).
  set (sa := NState _ _ _).
  assert (Ha : idx_ok sa).
  { unfold sa. apply (insert_ok thr (oidx (nst g a)) (outs (nst g a)) (ins (nst g a)) b e); [|reflexivity].
    destruct (nst g a) eqn:E. simpl. rewrite <- E. apply H. }
  assert (H1 : forall y, idx_ok (upd (nst g) a sa y)).
  { intros y. unfold upd. destruct (Nat.eqb y a); auto. }
  destruct (Nat.eqb_spec x b) as [->|Hx].
  - rewrite upd_same. eapply idx_ok_ext; [..|exact (H1 b)]; reflexivity.
  - rewrite upd_other by assumption. apply H1.
Qed.

Lemma rep_push thr g s a b :
  Rep g s -> In a (mv s) -> In b (mv s) ->
  Rep (fst (pushEdge thr g a b)) (fst (mg_push s a b)).
Proof.
  intros R Ha Hb. constructor.
  - apply (rep_nodes _ _ R).
  - intros x. rewrite pushEdge_outs, (rep_outs _ _ R). simpl. rewrite filter_snoc.
    unfold from at 3. simpl. rewrite (Nat.eqb_sym x a), (rep_ne _ _ R). reflexivity.
  - intros x. rewrite pushEdge_ins, (rep_ins _ _ R). simpl. rewrite filter_snoc.
    unfold to at 3. simpl. rewrite (Nat.eqb_sym x b), (rep_ne _ _ R). reflexivity.
  - apply pushEdge_idx, R.
  - apply R.
  - simpl. now rewrite (rep_ne _ _ R).
  - apply R.
  - apply R.
  - simpl. intros e He. apply in_app_iff in He. destruct He as [He|[<-|[]]]; simpl; [|lia].
    apply (rep_fresh_e _ _ R) in He. lia.
  - simpl. rewrite map_app. simpl. apply NoDup_app_intro; [apply R|repeat constructor; intros []|].
    intros i Hi [<-|[]]. apply in_map_iff in Hi. destruct Hi as [e [He Hin]].
    apply (rep_fresh_e _ _ R) in Hin. lia.
  - simpl. intros e He. apply in_app_iff in He. destruct He as [He|[<-|[]]]; simpl; auto.
    now apply R.
Qed.

Lemma push_edge_eq thr g s a b : Rep g s -> snd (pushEdge thr g a b) = snd (mg_push s a b).
Proof. intros R. simpl. now rewrite (rep_ne _ _ R). Qed.

(** ** removeInEdge / removeEdge *)
Lemma find_none_filter {A} (p : A -> bool) l : find p l = None <-> filter p l = [].
Proof. rewrite find_filter_hd. destruct (filter p l); simpl; split; congruence. Qed.

Lemma removeInEdge_other g b a : nextn (fst (removeInEdge g b a)) = nextn g /\
  nexte (fst (removeInEdge g b a)) = nexte g /\ gnodes (fst (removeInEdge g b a)) = gnodes g /\
  (forall x, outs (nst (fst (removeInEdge g b a)) x) = outs (nst g x)) /\
  (forall x, oidx (nst (fst (removeInEdge g b a)) x) = oidx (nst g x)) /\
  (forall x, ins (nst (fst (removeInEdge g b a)) x) =
             if Nat.eqb x b then remove_first (from a) (ins (nst g b)) else ins (nst g x)).
Proof.
  unfold removeInEdge, findEdgeFrom. destruct (find (from a) (ins (nst g b))) eqn:F; simpl; repeat split; intros x;
    unfold upd; destruct (Nat.eqb_spec x b) as [->|]; simpl; try reflexivity.
  apply find_none_filter in F. now rewrite remove_first_none.
Qed.

Lemma removeInEdge_success g b a :
  snd (removeInEdge g b a) = match find (from a) (ins (nst g b)) with Some _ => true | None => false end.
Proof. unfold removeInEdge, findEdgeFrom. now destruct (find (from a) (ins (nst g b))). Qed.

Lemma filter_remove_first_comm {A} (p q r : A -> bool) l :
  (forall x, r x = p x && q x) ->
  filter p (remove_first r l) = remove_first q (filter p l).
Proof.
  intros Hr. induction l as [|x l IH]; simpl; [reflexivity|].
  rewrite Hr. destruct (p x) eqn:P; simpl.
  - destruct (q x) eqn:Q; [reflexivity|]. simpl. rewrite P, IH. reflexivity.
  - rewrite P. exact IH.
Qed.

Lemma filter_remove_first_id {A} (p r : A -> bool) l :
  (forall x, p x = true -> r x = false) ->
  filter p (remove_first r l) = filter p l.
Proof.
  intros H. apply filter_remove_first_other. intros x _ Hr.
  destruct (p x) eqn:P; [|reflexivity]. apply H in P. congruence.
Qed.

Lemma node_removeEdge_ok g s a b :
  Rep g s ->
  exists g', node_removeEdge g a b = Some (g', existsb (between a b) (mE s)) /\
             Rep g' (MG (mv s) (remove_first (between a b) (mE s)) (mnn s) (mne s)).
Proof.
  intros R. unfold node_removeEdge, findEdgeTo.
  rewrite (rep_outs _ _ R), find_between.
  destruct (find (between a b) (mE s)) as [e|] eqn:F.
  - assert (Hex : existsb (between a b) (mE s) = true).
    { apply find_some in F. apply existsb_exists. now exists e. }
    pose proof (removeInEdge_success g b a) as Hs. rewrite (rep_ins _ _ R), find_between', F in Hs.
    destruct (removeInEdge_other g b a) as (K1 & K2 & K3 & K4 & K5 & K6).
    destruct (removeInEdge g b a) as [g1 ok]. simpl in Hs, K1, K2, K3, K4, K5, K6. subst ok.
    rewrite Hex. eexists. split; [reflexivity|].
    assert (O1 : forall x, outs (nst g1 x) = filter (from x) (mE s)).
    { intros x. rewrite K4. apply R. }
    assert (I1 : forall x, ins (nst g1 x) = filter (to x) (remove_first (between a b) (mE s))).
    { intros x. rewrite K6. destruct (Nat.eqb_spec x b) as [->|Hx]; rewrite (rep_ins _ _ R).
      - symmetry. apply filter_remove_first_comm. intros y. unfold between, to, from. apply andb_comm.
      - symmetry. apply filter_remove_first_id.
        intros y. unfold to, between. rewrite Nat.eqb_eq. intros ->.
        apply andb_false_intro2. now apply Nat.eqb_neq. }
    assert (X1 : forall x, idx_ok (nst g1 x)).
    { intros x. eapply idx_ok_ext; [symmetry; apply K4|symmetry; apply K5|apply R]. }
    assert (OA : filter (from a) (remove_first (between a b) (mE s)) =
                 remove_first (to b) (filter (from a) (mE s))).
    { apply filter_remove_first_comm. reflexivity. }
    constructor; simpl; try rewrite K1; try rewrite K2; try rewrite K3; try apply R.
    + intros x. simpl. unfold upd. destruct (Nat.eqb_spec x a) as [->|Hx]; simpl.
      * now rewrite O1, OA.
      * rewrite O1. symmetry. apply filter_remove_first_id.
        intros y. unfold from, between. rewrite Nat.eqb_eq. intros ->.
        apply andb_false_intro1. now apply Nat.eqb_neq.
    + intros x. simpl. unfold upd. destruct (Nat.eqb_spec x a) as [->|Hx]; simpl; apply I1.
    + intros x. cbn [nst]. unfold upd. destruct (Nat.eqb_spec x a) as [->|Hx]; [|apply X1].
      unfold idx_ok; cbn [oidx outs]. specialize (X1 a). unfold idx_ok in X1.
      destruct (oidx (nst g1 a)) as [m|]; [|exact I].
      intros y. rewrite O1 in *.
      assert (Hy : y <> b -> find (to y) (remove_first (to b) (filter (from a) (mE s))) =
                             find (to y) (filter (from a) (mE s))).
      { intros Hyb. rewrite !find_filter_hd. f_equal. apply filter_remove_first_id.
        intros z. unfold to. rewrite Nat.eqb_eq. intros ->. now apply Nat.eqb_neq. }
      destruct (find (to b) (remove_first (to b) (filter (from a) (mE s)))) as [e'|] eqn:F'.
      * unfold idx_set. rewrite idx_find_cons, idx_find_erase.
        destruct (Nat.eqb_spec b y) as [<-|Hn]; [now rewrite F'|].
        rewrite X1. symmetry. apply Hy. congruence.
      * rewrite idx_find_erase.
        destruct (Nat.eqb_spec b y) as [<-|Hn]; [now rewrite F'|].
        rewrite X1. symmetry. apply Hy. congruence.
    + simpl. intros e' He'. apply In_remove_first in He'. now apply (rep_fresh_e _ _ R).
    + simpl. pose proof (rep_ids _ _ R) as H. clear -H.
      induction (mE s) as [|x l IH]; simpl in *; [constructor|].
      inversion H as [|? ? Hx Hl]; subst.
      destruct (between a b x); [assumption|]. simpl. constructor; [|auto].
      intros Hi. apply Hx. apply in_map_iff in Hi. destruct Hi as [y [Hy Hin]].
      apply In_remove_first in Hin. rewrite <- Hy. now apply in_map.
    + simpl. intros e' He'. apply In_remove_first in He'. now apply (rep_ends _ _ R).
  - assert (Hf : filter (between a b) (mE s) = []) by now apply find_none_filter.
    exists g. split.
    + f_equal. f_equal. symmetry. apply not_true_is_false. rewrite existsb_exists.
      intros [e [He Hb]]. rewrite (proj1 (filter_nil_iff _ _) Hf e He) in Hb. discriminate.
    + rewrite remove_first_none by assumption. destruct s; exact R.
Qed.

(** ** clearAllEdges *)
Fixpoint rf_n {A} (p : A -> bool) (k : nat) (l : list A) : list A :=
  match k with 0 => l | S k => rf_n p k (remove_first p l) end.

Lemma filter_neg_remove_first {A} (p : A -> bool) l :
  filter (fun x => negb (p x)) (remove_first p l) = filter (fun x => negb (p x)) l.
Proof. apply filter_remove_first_other. intros x _ H. now rewrite H. Qed.

Lemma rf_n_all {A} (p : A -> bool) k : forall l,
  length (filter p l) <= k -> rf_n p k l = filter (fun x => negb (p x)) l.
Proof.
  induction k as [|k IH]; intros l H; simpl.
  - symmetry. apply filter_true. intros x Hx.
    assert (Hf : filter p l = []) by (destruct (filter p l); [reflexivity|simpl in H; lia]).
    now rewrite (proj1 (filter_nil_iff _ _) Hf x Hx).
  - rewrite IH, filter_neg_remove_first; [reflexivity|].
    rewrite filter_remove_first_same. destruct (filter p l); simpl in *; lia.
Qed.

Lemma clear_outs_spec n es : forall g,
  nextn (clear_outs g n es) = nextn g /\ nexte (clear_outs g n es) = nexte g /\
  gnodes (clear_outs g n es) = gnodes g /\
  (forall x, outs (nst (clear_outs g n es) x) = outs (nst g x)) /\
  (forall x, oidx (nst (clear_outs g n es) x) = oidx (nst g x)) /\
  (forall x, ins (nst (clear_outs g n es) x) = rf_n (from n) (length (filter (to x) es)) (ins (nst g x))).
Proof.
  induction es as [|e es IH]; intros g; simpl; [repeat split; reflexivity|].
  destruct (IH (fst (removeInEdge g (etgt e) n))) as (H1 & H2 & H3 & H4 & H5 & H6).
  destruct (removeInEdge_other g (etgt e) n) as (K1 & K2 & K3 & K4 & K5 & K6).
  rewrite H1, H2, H3. repeat split; try assumption.
  - intros x. now rewrite H4.
  - intros x. now rewrite H5.
  - intros x. rewrite H6, K6. unfold to at 2. rewrite (Nat.eqb_sym x (etgt e)).
    destruct (Nat.eqb_spec (etgt e) x) as [->|]; reflexivity.
Qed.

Lemma clear_ins_ok n : forall l g s,
  Rep g s -> 
  exists g', clear_ins g n l = Some g' /\
    Rep g' (MG (mv s) (fold_left (fun E x => remove_first (between x n) E) l (mE s)) (mnn s) (mne s)).
Proof.
  induction l as [|x l IH]; intros g s R; simpl.
  - exists g. split; [reflexivity|]. destruct s; exact R.
  - destruct (node_removeEdge_ok g s x n R) as [g1 [E1 R1]]. rewrite E1.
    destruct (IH g1 _ R1) as [g2 [E2 R2]]. exists g2. split; [assumption|exact R2].
Qed.

Lemma fold_remove_sources n : forall l E,
  map esrc (filter (to n) E) = l ->
  fold_left (fun E x => remove_first (between x n) E) l E =
  filter (fun e => negb (Nat.eqb (etgt e) n)) E.
Proof.
  induction l as [|x l IH]; intros E H; simpl.
  - symmetry. apply filter_true. intros e He.
    assert (Hf : filter (to n) E = []) by (destruct (filter (to n) E); [reflexivity|discriminate]).
    pose proof (proj1 (filter_nil_iff _ _) Hf e He) as Hto. unfold to in Hto. now rewrite Hto.
  - destruct (filter (to n) E) as [|e r] eqn:F; [discriminate|]. injection H as Hx Hl.
    assert (Hrf : filter (to n) (remove_first (between x n) E) = r).
    { rewrite (filter_remove_first_comm (to n) (from x)).
      - rewrite F. simpl. unfold from. rewrite Hx, Nat.eqb_refl. reflexivity.
      - intros y. unfold between, to, from. apply andb_comm. }
    rewrite IH by now rewrite Hrf.
    apply filter_remove_first_id. intros y. unfold between.
    rewrite negb_true_iff. intros ->. now rewrite andb_false_r.
Qed.

Lemma clearAllEdges_ok g s n :
  Rep g s ->
  exists g', clearAllEdges g n = Some g' /\
    Rep g' (MG (mv s) (filter (fun e => negb (touches n e)) (mE s)) (mnn s) (mne s)).
Proof.
  intros R. unfold clearAllEdges.
  destruct (clear_outs_spec n (outs (nst g n)) g) as (H1 & H2 & H3 & H4 & H5 & H6).
  set (g1 := clear_outs g n (outs (nst g n))) in *.
  set (g2 := Graph _ _ _ _).
  set (E2 := filter (fun e => negb (Nat.eqb (esrc e) n)) (mE s)).
  assert (R2 : Rep g2 (MG (mv s) E2 (mnn s) (mne s))).
  { constructor; simpl.
    - rewrite H3. apply R.
    - intros x. unfold upd. destruct (Nat.eqb_spec x n) as [->|Hx]; simpl.
      + symmetry. apply filter_nil_iff. intros e He. unfold E2 in He. apply filter_In in He.
        destruct He as [_ He]. unfold from. now apply negb_true_iff.
      + rewrite H4, (rep_outs _ _ R). unfold E2. rewrite filter_comm.
        symmetry. apply filter_true. intros e He. apply filter_In in He. destruct He as [_ He].
        unfold from in He. apply Nat.eqb_eq in He. rewrite He. apply negb_true_iff.
        now apply Nat.eqb_neq.
    - intros x.
      assert (Hx : ins (nst g1 x) = filter (to x) E2).
      { rewrite H6. rewrite rf_n_all.
        - rewrite (rep_ins _ _ R). unfold E2. rewrite filter_comm. reflexivity.
        - rewrite (rep_ins _ _ R), (rep_outs _ _ R), filter_comm. lia. }
      unfold upd. destruct (Nat.eqb_spec x n) as [->|]; simpl; exact Hx.
    - intros x. unfold upd. destruct (Nat.eqb_spec x n) as [->|]; [exact I|].
      eapply idx_ok_ext; [symmetry; apply H4|symmetry; apply H5|apply R].
    - rewrite H1. apply R.
    - rewrite H2. apply R.
    - apply R.
    - apply R.
    - intros e He. unfold E2 in He. apply filter_In in He. now apply R.
    - unfold E2. pose proof (rep_ids _ _ R) as H. clear -H.
      induction (mE s) as [|x l IH]; simpl in *; [constructor|].
      inversion H as [|? ? Hx Hl]; subst. destruct (negb _); [|auto]. simpl. constructor; [|auto].
      intros Hi. apply Hx. apply in_map_iff in Hi. destruct Hi as [y [Hy Hin]].
      apply filter_In in Hin. rewrite <- Hy. now apply in_map.
    - intros e He. unfold E2 in He. apply filter_In in He. now apply R. }
  destruct (clear_ins_ok n (map esrc (ins (nst g2 n))) g2 _ R2) as [g3 [E3 R3]].
  rewrite E3. simpl in R3.
  rewrite fold_remove_sources in R3 by (f_equal; symmetry; apply (rep_ins _ _ R2)).
  assert (Hall : filter (fun e => negb (Nat.eqb (etgt e) n)) E2 =
                 filter (fun e => negb (touches n e)) (mE s)).
  { unfold E2. rewrite filter_filter. apply filter_ext. intros e. unfold touches. now rewrite negb_orb. }
  rewrite Hall in R3.
  assert (Hin : ins (nst g3 n) = []).
  { rewrite (rep_ins _ _ R3). simpl. apply filter_nil_iff. intros e He.
    apply filter_In in He. destruct He as [_ He]. unfold touches in He.
    rewrite negb_orb in He. apply andb_true_iff in He. now apply negb_true_iff. }
  rewrite Hin. exists g3. now split.
Qed.

Lemma erase_at_find n : forall l i, find_index n l = Some i -> erase_at i l = remove_first (Nat.eqb n) l.
Proof.
  induction l as [|x l IH]; simpl; intros i H; [discriminate|].
  rewrite (Nat.eqb_sym n x). destruct (Nat.eqb x n).
  - now injection H as <-.
  - destruct (find_index n l) as [j|] eqn:F; [|discriminate]. injection H as <-. simpl.
    now rewrite (IH j).
Qed.

Lemma In_remove_first_nat n l x : In x l -> x <> n -> In x (remove_first (Nat.eqb n) l).
Proof.
  induction l as [|y l IH]; simpl; [tauto|]. intros [->|H] Hn.
  - destruct (Nat.eqb_spec n x); [congruence|now left].
  - destruct (Nat.eqb n y); [assumption|right; auto].
Qed.

Lemma In_remove_first_nat_iff n l x : NoDup l ->
  In x (remove_first (Nat.eqb n) l) <-> In x l /\ x <> n.
Proof.
  intros Hnd. split; [|intros [H1 H2]; now apply In_remove_first_nat].
  intros H. split; [eapply In_remove_first; eauto|].
  intros ->. revert H. induction Hnd as [|y l Hy Hl IH]; simpl; [tauto|].
  destruct (Nat.eqb_spec n y); subst; [assumption|]. intros [->|H]; [congruence|auto].
Qed.

(** ** Step and run refinement *)
Lemma step_ok thr g s o :
  Rep g s ->
  match step thr g o, mg_step s o with
  | Some (g', x), Some (s', y) => Rep g' s' /\ x = y
  | None, None => True
  | _, _ => False
  end.
Proof.
  intros R. destruct o as [|n|a b|a b|a b]; simpl.
  - split; [|now rewrite (rep_nn _ _ R)]. constructor; simpl.
    + now rewrite (rep_nodes _ _ R), (rep_nn _ _ R).
    + intros x. unfold upd. destruct (Nat.eqb_spec x (nextn g)) as [->|]; [|apply R]. simpl.
      symmetry. apply filter_nil_iff. intros e He. unfold from. apply Nat.eqb_neq.
      intros H. apply (rep_ends _ _ R) in He. destruct He as [He _].
      apply (rep_fresh_n _ _ R) in He. rewrite <- (rep_nn _ _ R) in He. lia.
    + intros x. unfold upd. destruct (Nat.eqb_spec x (nextn g)) as [->|]; [|apply R]. simpl.
      symmetry. apply filter_nil_iff. intros e He. unfold to. apply Nat.eqb_neq.
      intros H. apply (rep_ends _ _ R) in He. destruct He as [_ He].
      apply (rep_fresh_n _ _ R) in He. rewrite <- (rep_nn _ _ R) in He. lia.
    + intros x. unfold upd. destruct (Nat.eqb_spec x (nextn g)) as [->|]; [exact I|apply R].
    + now rewrite (rep_nn _ _ R).
    + apply R.
    + intros n Hn. apply in_app_iff in Hn. destruct Hn as [Hn|[<-|[]]]; [|lia].
      apply (rep_fresh_n _ _ R) in Hn. lia.
    + apply NoDup_app_intro; [apply R|repeat constructor; intros []|].
      intros n Hn [<-|[]]. apply (rep_fresh_n _ _ R) in Hn. lia.
    + apply R.
    + apply R.
    + intros e He. apply (rep_ends _ _ R) in He. rewrite !in_app_iff. tauto.
  - unfold removeNode.
    pose proof (hasNode_memb g n) as Hh. unfold hasNode in Hh. rewrite (rep_nodes _ _ R) in Hh.
    destruct (findNode g n) as [i|] eqn:F; simpl; rewrite <- Hh; [|now split].
    destruct (clearAllEdges_ok g s n R) as [g' [E' R']]. rewrite E'. simpl.
    split; [|reflexivity].
    assert (Hnodes : erase_at i (gnodes g') = remove_first (Nat.eqb n) (mv s)).
    { rewrite (rep_nodes _ _ R'). simpl. apply erase_at_find.
      unfold findNode in F. now rewrite (rep_nodes _ _ R) in F. }
    constructor; simpl; try apply R'.
    + exact Hnodes.
    + intros x Hx. apply (rep_fresh_n _ _ R). eapply In_remove_first; eauto.
    + apply NoDup_remove_first, R.
    + intros e He. apply filter_In in He. destruct He as [He Ht].
      unfold touches in Ht. rewrite negb_orb in Ht. apply andb_true_iff in Ht.
      destruct Ht as [T1 T2]. rewrite negb_true_iff, Nat.eqb_neq in T1, T2.
      destruct (rep_ends _ _ R e He) as [A B].
      split; apply In_remove_first_nat; assumption.
  - unfold g_addEdge. rewrite !hasNode_memb, (rep_nodes _ _ R).
    destruct (memb a (mv s)) eqn:Ha; [|exact I]. destruct (memb b (mv s)) eqn:Hb; [|exact I]. simpl.
    apply memb_In in Ha, Hb. unfold node_addEdge.
    rewrite (lookup_ok _ _ (rep_idx _ _ R a)), (rep_outs _ _ R), find_between.
    destruct (find (between a b) (mE s)) as [e|]; [now split|].
    split; [now apply (rep_push thr g s a b)|]. simpl. now rewrite (rep_ne _ _ R).
  - unfold g_addNewEdge. rewrite !hasNode_memb, (rep_nodes _ _ R).
    destruct (memb a (mv s)) eqn:Ha; [|exact I]. destruct (memb b (mv s)) eqn:Hb; [|exact I]. simpl.
    apply memb_In in Ha, Hb.
    split; [now apply (rep_push thr g s a b)|]. now rewrite (rep_ne _ _ R).
  - unfold g_removeEdge. rewrite !hasNode_memb, (rep_nodes _ _ R).
    destruct (memb a (mv s)) eqn:Ha; [|exact I]. destruct (memb b (mv s)) eqn:Hb; [|exact I]. simpl.
    destruct (node_removeEdge_ok g s a b R) as [g' [E' R']]. rewrite E'. simpl. now split.
Qed.

Lemma run_ok thr : forall os g s, Rep g s ->
  match run thr g os, mg_run s os with
  | Some (g', x), Some (s', y) => Rep g' s' /\ x = y
  | None, None => True
  | _, _ => False
  end.
Proof.
  induction os as [|o os IH]; intros g s R; simpl; [now split|].
  pose proof (step_ok thr g s o R) as H.
  destruct (step thr g o) as [[g1 x]|], (mg_step s o) as [[s1 y]|]; try contradiction; [|exact I].
  destruct H as [R1 ->]. specialize (IH g1 s1 R1).
  destruct (run thr g1 os) as [[g2 xs]|], (mg_run s1 os) as [[s2 ys]|]; try contradiction; [|exact I].
  destruct IH as [R2 ->]. now split.
Qed.

Lemma reachable_rep thr g : reachable thr g -> exists s, Rep g s.
Proof.
  intros (os & rs & H). pose proof (run_ok thr os _ _ rep_empty) as K. rewrite H in K.
  destruct (mg_run mg_empty os) as [[s y]|]; [|contradiction]. exists s. apply K.
Qed.

Lemma NoDup_map_inj {A B} (f : A -> B) l x y :
  NoDup (map f l) -> In x l -> In y l -> f x = f y -> x = y.
Proof.
  induction l as [|z l IH]; simpl; [tauto|]. intros H. inversion H as [|? ? Hz Hl]; subst.
  intros [->|Hx] [->|Hy] E; auto.
  - exfalso. apply Hz. rewrite E. now apply in_map.
  - exfalso. apply Hz. rewrite <- E. now apply in_map.
Qed.

Lemma Rep_mirror g s : Rep g s -> Mirror g.
Proof.
  intros R.
  assert (NDE : NoDup (mE s)) by (eapply NoDup_map_inv, R).
  constructor.
  - intros a e He. rewrite (rep_outs _ _ R) in He. apply filter_In in He. destruct He as [He Hf].
    unfold from in Hf. apply Nat.eqb_eq in Hf. rewrite (rep_nodes _ _ R).
    destruct (rep_ends _ _ R e He). subst a. repeat split; auto.
    rewrite (rep_ins _ _ R). apply filter_In. split; [assumption|apply Nat.eqb_refl].
  - intros a e He. rewrite (rep_ins _ _ R) in He. apply filter_In in He. destruct He as [He Hf].
    unfold to in Hf. apply Nat.eqb_eq in Hf. rewrite (rep_nodes _ _ R).
    destruct (rep_ends _ _ R e He). subst a. repeat split; auto.
    rewrite (rep_outs _ _ R). apply filter_In. split; [assumption|apply Nat.eqb_refl].
  - intros a. rewrite (rep_outs _ _ R). now apply NoDup_filter'.
  - intros a. rewrite (rep_ins _ _ R). now apply NoDup_filter'.
  - intros e1 e2 a1 a2 H1 H2. rewrite (rep_outs _ _ R) in H1, H2.
    apply filter_In in H1, H2. apply (NoDup_map_inj eid (mE s)); [apply R|tauto|tauto].
  - intros a b. rewrite (rep_outs _ _ R), (rep_ins _ _ R). apply filter_comm.
  - rewrite (rep_nodes _ _ R). apply R.
Qed.

(** ** C01-C05 *)
Lemma c01 thr g : reachable thr g -> Mirror g.
Proof. intros H. destruct (reachable_rep _ _ H) as [s R]. eapply Rep_mirror; eauto. Qed.

Definition run_obs (r : option (graph * list res)) : option (list nat * list res) :=
  option_map (fun p => (gnodes (fst p), snd p)) r.

Lemma c02 thr1 thr2 os :
  match run thr1 empty_graph os, run thr2 empty_graph os with
  | Some (g1, r1), Some (g2, r2) =>
      r1 = r2 /\ gnodes g1 = gnodes g2 /\
      forall n, outs (nst g1 n) = outs (nst g2 n) /\ ins (nst g1 n) = ins (nst g2 n)
  | None, None => True
  | _, _ => False
  end.
Proof.
  pose proof (run_ok thr1 os _ _ rep_empty) as H1.
  pose proof (run_ok thr2 os _ _ rep_empty) as H2.
  destruct (mg_run mg_empty os) as [[s y]|],
    (run thr1 empty_graph os) as [[g1 r1]|], (run thr2 empty_graph os) as [[g2 r2]|];
    try contradiction; try exact I.
  destruct H1 as [R1 ->], H2 as [R2 ->]. split; [reflexivity|]. split.
  - now rewrite (rep_nodes _ _ R1), (rep_nodes _ _ R2).
  - intros n. now rewrite (rep_outs _ _ R1), (rep_outs _ _ R2), (rep_ins _ _ R1), (rep_ins _ _ R2).
Qed.

Lemma run_asserts thr os :
  run thr empty_graph os = None <-> mg_run mg_empty os = None.
Proof.
  pose proof (run_ok thr os _ _ rep_empty) as H.
  destruct (run thr empty_graph os) as [[g r]|], (mg_run mg_empty os) as [[s y]|];
    try contradiction; split; congruence.
Qed.

(** Only addEdge is used: no parallel edges. *)
Definition no_new (o : op) : bool := match o with OAddNewEdge _ _ => false | _ => true end.

Lemma simple_step s o s' x : no_new o = true -> mg_step s o = Some (s', x) ->
  (forall a b, length (filter (between a b) (mE s)) <= 1) ->
  (forall a b, length (filter (between a b) (mE s')) <= 1).
Proof.
  intros Hn H Hs a b. destruct o as [|n|p q|p q|p q]; simpl in *; try discriminate.
  - injection H as <- <-. apply Hs.
  - destruct (memb n (mv s)); injection H as <- <-; simpl; [|apply Hs].
    rewrite filter_comm. specialize (Hs a b). revert Hs.
    generalize (filter (between a b) (mE s)). intros l Hl.
    destruct l as [|e [|]]; simpl in *; try lia. destruct (negb _); simpl; lia.
  - destruct (memb p (mv s) && memb q (mv s)); [|discriminate].
    destruct (find (between p q) (mE s)) eqn:F; injection H as <- <-; [apply Hs|]. simpl.
    rewrite filter_snoc. destruct (between a b _) eqn:E; [|apply Hs].
    unfold between in E. simpl in E. apply andb_true_iff in E. destruct E as [E1 E2].
    apply Nat.eqb_eq in E1, E2. subst. apply find_none_filter in F. now rewrite F.
  - destruct (memb p (mv s) && memb q (mv s)); [|discriminate]. injection H as <- <-. simpl.
    destruct (Nat.eq_dec p a) as [->|]; [destruct (Nat.eq_dec q b) as [->|]|].
    + rewrite filter_remove_first_same. specialize (Hs a b).
      destruct (filter (between a b) (mE s)); simpl in *; lia.
    + rewrite filter_remove_first_id; [apply Hs|]. intros e. unfold between.
      rewrite andb_true_iff, !Nat.eqb_eq. intros [-> ->]. apply andb_false_intro2. now apply Nat.eqb_neq; auto.
    + rewrite filter_remove_first_id; [apply Hs|]. intros e. unfold between.
      rewrite andb_true_iff, !Nat.eqb_eq. intros [-> ->]. apply andb_false_intro1. now apply Nat.eqb_neq; auto.
Qed.

Lemma simple_run : forall os s s' xs, forallb no_new os = true -> mg_run s os = Some (s', xs) ->
  (forall a b, length (filter (between a b) (mE s)) <= 1) ->
  (forall a b, length (filter (between a b) (mE s')) <= 1).
Proof.
  induction os as [|o os IH]; simpl; intros s s' xs Hn H Hs.
  - now injection H as <- <-.
  - apply andb_true_iff in Hn. destruct Hn as [Ho Hn].
    destruct (mg_step s o) as [[s1 x]|] eqn:E; [|discriminate].
    destruct (mg_run s1 os) as [[s2 ys]|] eqn:E2; [|discriminate]. injection H as <- <-.
    eapply IH; eauto. eapply simple_step; eauto.
Qed.

Lemma c03_simple thr os g rs : forallb no_new os = true ->
  run thr empty_graph os = Some (g, rs) ->
  forall a b, length (getEdgesTo (nst g a) b) <= 1.
Proof.
  intros Hn H. pose proof (run_ok thr os _ _ rep_empty) as K. rewrite H in K.
  destruct (mg_run mg_empty os) as [[s y]|] eqn:M; [|contradiction]. destruct K as [R _].
  intros a b. unfold getEdgesTo. rewrite (rep_outs _ _ R), filter_filter.
  pose proof (simple_run _ _ _ _ Hn M) as S. simpl in S. apply S. intros; lia.
Qed.

Lemma addEdge_cases thr g a b : reachable thr g -> hasNode g a = true -> hasNode g b = true ->
  exists g' e, g_addEdge thr g a b = Some (g', e) /\ esrc e = a /\ etgt e = b /\
    ((findEdgeTo (nst g a) b = Some e /\ g' = g) \/
     (findEdgeTo (nst g a) b = None /\
      (forall x y, ~ In e (outs (nst g x)) /\ ~ In e (ins (nst g y))) /\
      outs (nst g' a) = outs (nst g a) ++ [e] /\ ins (nst g' b) = ins (nst g b) ++ [e] /\
      (forall x, x <> a -> outs (nst g' x) = outs (nst g x)) /\
      (forall x, x <> b -> ins (nst g' x) = ins (nst g x)) /\
      gnodes g' = gnodes g)).
Proof.
  intros Hr Ha Hb. destruct (reachable_rep _ _ Hr) as [s R].
  unfold g_addEdge, node_addEdge. rewrite Ha, Hb. simpl.
  rewrite (lookup_ok _ _ (rep_idx _ _ R a)). fold (findEdgeTo (nst g a) b).
  destruct (findEdgeTo (nst g a) b) as [e|] eqn:F.
  - exists g, e. split; [reflexivity|]. unfold findEdgeTo in F. apply find_some in F. destruct F as [Hin Ht].
    unfold to in Ht. apply Nat.eqb_eq in Ht.
    destruct (mir_out _ (Rep_mirror _ _ R) _ _ Hin) as [? _]. auto.
  - destruct (pushEdge thr g a b) as [g' e] eqn:P. exists g', e. split; [reflexivity|].
    assert (He : e = Edge (nexte g) a b) by (unfold pushEdge in P; congruence).
    assert (Hg : g' = fst (pushEdge thr g a b)) by now rewrite P.
    repeat split; try (now subst e). right. split; [reflexivity|].
    split.
    { intros x y. rewrite (rep_outs _ _ R), (rep_ins _ _ R).
      assert (Hne : ~ In e (mE s)).
      { intros Hi. apply (rep_fresh_e _ _ R) in Hi. rewrite He in Hi. simpl in Hi.
        rewrite (rep_ne _ _ R) in Hi. lia. }
      split; intros Hi; apply filter_In in Hi; tauto. }
    rewrite Hg, He. repeat split.
    + rewrite pushEdge_outs, Nat.eqb_refl. reflexivity.
    + rewrite pushEdge_ins, Nat.eqb_refl. reflexivity.
    + intros x Hx. rewrite pushEdge_outs. now apply Nat.eqb_neq in Hx; rewrite Hx.
    + intros x Hx. rewrite pushEdge_ins. now apply Nat.eqb_neq in Hx; rewrite Hx.
Qed.

(** A second addEdge of the same pair returns the same object and changes nothing. *)
Lemma reachable_step thr g o g' x : reachable thr g -> step thr g o = Some (g', x) -> reachable thr g'.
Proof.
  intros (os & rs & H) Hs. exists (os ++ [o]), (rs ++ [x]).
  revert rs H. generalize empty_graph. induction os as [|o' os IH]; simpl; intros g0 rs H.
  - injection H as <- <-. now rewrite Hs.
  - destruct (step thr g0 o') as [[g1 y]|]; [|discriminate].
    destruct (run thr g1 os) as [[g2 ys]|] eqn:E; [|discriminate]. injection H as <- <-.
    now rewrite (IH g1 ys E).
Qed.

Lemma c03_idem thr g a b g1 e1 : reachable thr g -> g_addEdge thr g a b = Some (g1, e1) ->
  g_addEdge thr g1 a b = Some (g1, e1).
Proof.
  intros Hr H.
  assert (Hr1 : reachable thr g1).
  { eapply (reachable_step thr g (OAddEdge a b) g1 (REdge e1)); [assumption|]. simpl. now rewrite H. }
  assert (Hh : hasNode g a = true /\ hasNode g b = true).
  { unfold g_addEdge in H. destruct (hasNode g a), (hasNode g b); simpl in H; try discriminate; auto. }
  destruct Hh as [Ha Hb].
  destruct (addEdge_cases thr g a b Hr Ha Hb) as (g' & e & E & Es & Et & [[F ->]|(F & Hf & HO & HI & HO' & HI' & HN)]);
    rewrite E in H; injection H as <- <-; [assumption|].
  unfold g_addEdge. rewrite !hasNode_memb, HN, <- !hasNode_memb, Ha, Hb. simpl.
  destruct (reachable_rep _ _ Hr1) as [s R].
  unfold node_addEdge. rewrite (lookup_ok _ _ (rep_idx _ _ R a)), HO, find_app.
  unfold findEdgeTo in F. rewrite F. simpl. unfold to. now rewrite Et, Nat.eqb_refl.
Qed.

Lemma c04 thr g a b : reachable thr g -> hasNode g a = true -> hasNode g b = true ->
  exists g' ok, g_removeEdge g a b = Some (g', ok) /\
    ok = (match findEdgeTo (nst g a) b with Some _ => true | None => false end) /\
    gnodes g' = gnodes g /\
    outs (nst g' a) = remove_first (to b) (outs (nst g a)) /\
    ins (nst g' b) = remove_first (from a) (ins (nst g b)) /\
    find (to b) (outs (nst g a)) = find (from a) (ins (nst g b)) /\
    (forall x, x <> a -> outs (nst g' x) = outs (nst g x)) /\
    (forall x, x <> b -> ins (nst g' x) = ins (nst g x)).
Proof.
  intros Hr Ha Hb. destruct (reachable_rep _ _ Hr) as [s R].
  unfold g_removeEdge. rewrite Ha, Hb. simpl.
  destruct (node_removeEdge_ok g s a b R) as [g' [E' R']].
  exists g', (existsb (between a b) (mE s)). split; [assumption|].
  split.
  { unfold findEdgeTo. rewrite (rep_outs _ _ R), find_between.
    destruct (find (between a b) (mE s)) as [e|] eqn:F.
    - apply find_some in F. apply existsb_exists. now exists e.
    - apply not_true_is_false. rewrite existsb_exists. intros [e [He Hb']].
      pose proof (find_none _ _ F e He). congruence. }
  split; [rewrite (rep_nodes _ _ R'), (rep_nodes _ _ R); reflexivity|].
  rewrite (rep_outs _ _ R'), (rep_outs _ _ R), (rep_ins _ _ R'), (rep_ins _ _ R). simpl.
  split; [apply filter_remove_first_comm; reflexivity|].
  split; [apply filter_remove_first_comm; intros e; apply andb_comm|].
  split; [now rewrite find_between, find_between'|].
  split; intros x Hx.
  - rewrite (rep_outs _ _ R'), (rep_outs _ _ R). apply filter_remove_first_id.
    intros y. unfold from, between. rewrite Nat.eqb_eq. intros ->.
    apply andb_false_intro1. now apply Nat.eqb_neq.
  - rewrite (rep_ins _ _ R'), (rep_ins _ _ R). apply filter_remove_first_id.
    intros y. unfold to, between. rewrite Nat.eqb_eq. intros ->.
    apply andb_false_intro2. now apply Nat.eqb_neq.
Qed.

(** ** numEdges *)
Lemma fold_sum (f : nat -> nat) l : forall c, fold_left (fun c n => c + f n) l c = c + list_sum (map f l).
Proof. induction l as [|x l IH]; intros c; simpl; [lia|]. rewrite IH. lia. Qed.

Lemma sum_counts : forall E (V : list nat), NoDup V -> (forall e, In e E -> In (esrc e) V) ->
  list_sum (map (fun n => length (filter (from n) E)) V) = length E.
Proof.
  induction E as [|e E IH]; intros V HV H; simpl.
  - clear. induction V; simpl; auto.
  - rewrite <- (IH V HV) by (intros; apply H; now right).
    specialize (H e (or_introl eq_refl)). clear IH.
    induction HV as [|x V Hx HV IHV]; [destruct H|]. simpl. unfold from at 1.
    destruct (Nat.eqb_spec (esrc e) x) as [Hex|Hex]; simpl.
    + f_equal. f_equal. f_equal. apply map_ext_in. intros y Hy.
      unfold from at 1. destruct (Nat.eqb_spec (esrc e) y); [congruence|reflexivity].
    + rewrite IHV; [lia|]. destruct H; [congruence|assumption].
Qed.

Lemma Rep_numEdges g s : Rep g s -> numEdges g = length (mE s).
Proof.
  intros R. unfold numEdges. rewrite fold_sum. simpl.
  rewrite (map_ext _ (fun n => length (filter (from n) (mE s)))).
  - rewrite (rep_nodes _ _ R). apply sum_counts; [apply R|]. intros e He. now apply R.
  - intros n. unfold outDegree. now rewrite (rep_outs _ _ R).
Qed.

Lemma length_filter_split {A} (p : A -> bool) l :
  length (filter p l) + length (filter (fun x => negb (p x)) l) = length l.
Proof. induction l as [|x l IH]; simpl; [reflexivity|]. destruct (p x); simpl; lia. Qed.

Lemma touches_count n E :
  length (filter (touches n) E) + length (filter (between n n) E) =
  length (filter (from n) E) + length (filter (to n) E).
Proof.
  induction E as [|e E IH]; simpl; [reflexivity|].
  unfold touches at 1, between at 1, from at 1, to at 1.
  destruct (Nat.eqb (esrc e) n), (Nat.eqb (etgt e) n); simpl; lia.
Qed.

Lemma c05 thr g n : reachable thr g ->
  exists g' ok, removeNode g n = Some (g', ok) /\ ok = memb n (gnodes g) /\
    (ok = false -> g' = g) /\
    (ok = true ->
      (forall x, In x (gnodes g') <-> In x (gnodes g) /\ x <> n) /\
      outs (nst g' n) = [] /\ ins (nst g' n) = [] /\
      (forall x, x <> n -> outs (nst g' x) = filter (fun e => negb (to n e)) (outs (nst g x))) /\
      (forall x, x <> n -> ins (nst g' x) = filter (fun e => negb (from n e)) (ins (nst g x))) /\
      numEdges g' + (outDegree g n + inDegree g n)
        = numEdges g + length (getEdgesTo (nst g n) n)).
Proof.
  intros Hr. destruct (reachable_rep _ _ Hr) as [s R].
  pose proof (step_ok thr g s (ORemoveNode n) R) as H. simpl in H.
  rewrite (rep_nodes _ _ R).
  destruct (memb n (mv s)) eqn:Hm.
  - destruct (removeNode g n) as [[g' ok]|]; [|contradiction]. simpl in H.
    destruct H as [R' Hok]. injection Hok as ->. exists g', true.
    split; [reflexivity|]. split; [reflexivity|]. split; [discriminate|]. intros _.
    split; [intros x; rewrite (rep_nodes _ _ R'); simpl; apply In_remove_first_nat_iff, R|].
    rewrite (rep_outs _ _ R'), (rep_ins _ _ R'). simpl.
    split; [apply filter_nil_iff; intros e He; apply filter_In in He; destruct He as [_ He];
            unfold touches in He; unfold from; destruct (Nat.eqb (esrc e) n); [discriminate|reflexivity]|].
    split; [apply filter_nil_iff; intros e He; apply filter_In in He; destruct He as [_ He];
            unfold touches in He; unfold to; destruct (Nat.eqb (etgt e) n);
            [now rewrite orb_true_r in He|reflexivity]|].
    split.
    { intros x Hx. rewrite (rep_outs _ _ R'), (rep_outs _ _ R). simpl.
      rewrite !filter_filter. apply filter_ext. intros e. unfold touches, from, to.
      destruct (Nat.eqb_spec (esrc e) x) as [->|]; simpl; [|now rewrite andb_false_r].
      apply Nat.eqb_neq in Hx. rewrite Hx. simpl. now rewrite andb_true_r. }
    split.
    { intros x Hx. rewrite (rep_ins _ _ R'), (rep_ins _ _ R). simpl.
      rewrite !filter_filter. apply filter_ext. intros e. unfold touches, from, to.
      destruct (Nat.eqb_spec (etgt e) x) as [->|]; simpl; [|now rewrite andb_false_r].
      apply Nat.eqb_neq in Hx. rewrite Hx, orb_false_r. simpl. now rewrite andb_true_r. }
    rewrite (Rep_numEdges _ _ R'), (Rep_numEdges _ _ R). simpl.
    unfold outDegree, inDegree, getEdgesTo. rewrite (rep_outs _ _ R), (rep_ins _ _ R), filter_filter.
    pose proof (length_filter_split (touches n) (mE s)).
    pose proof (touches_count n (mE s)).
    change (fun x : edge => from n x && to n x) with (between n n). lia.
  - destruct (removeNode g n) as [[g' ok]|] eqn:E; [|contradiction]. simpl in H.
    destruct H as [_ Hok]. injection Hok as ->. exists g', false.
    split; [reflexivity|]. split; [reflexivity|]. split; [|discriminate]. intros _.
    unfold removeNode in E. pose proof (hasNode_memb g n) as Hh. unfold hasNode in Hh.
    rewrite (rep_nodes _ _ R), Hm in Hh. destruct (findNode g n); [discriminate|]. congruence.
Qed.

Lemma c05_sum thr g : reachable thr g ->
  numEdges g = list_sum (map (outDegree g) (gnodes g)) /\
  numEdges g = list_sum (map (inDegree g) (gnodes g)).
Proof.
  intros Hr. destruct (reachable_rep _ _ Hr) as [s R]. split.
  - unfold numEdges. now rewrite fold_sum.
  - rewrite (Rep_numEdges _ _ R).
    assert (HH : forall E (V : list nat), NoDup V -> (forall e, In e E -> In (etgt e) V) ->
      list_sum (map (fun n => length (filter (to n) E)) V) = length E).
    { clear. induction E as [|e E IH]; intros V HV H; simpl.
      - clear. induction V; simpl; auto.
      - rewrite <- (IH V HV) by (intros; apply H; now right).
        specialize (H e (or_introl eq_refl)). clear IH.
        induction HV as [|x V Hx HV IHV]; [destruct H|]. simpl. unfold to at 1.
        destruct (Nat.eqb_spec (etgt e) x) as [Hex|Hex]; simpl.
        + f_equal. f_equal. f_equal. apply map_ext_in. intros y Hy.
          unfold to at 1. destruct (Nat.eqb_spec (etgt e) y); [congruence|reflexivity].
        + rewrite IHV; [lia|]. destruct H; [congruence|assumption]. }
    rewrite <- (HH (mE s) (gnodes g)).
    + f_equal. apply map_ext. intros n. unfold inDegree. now rewrite (rep_ins _ _ R).
    + rewrite (rep_nodes _ _ R). apply R.
    + intros e He. rewrite (rep_nodes _ _ R). now apply R.
Qed.

Lemma run_spec thr os :
  match run thr empty_graph os, mg_run mg_empty os with
  | Some (g, x), Some (s, y) =>
      x = y /\ gnodes g = mv s /\
      (forall a, outs (nst g a) = filter (fun e => Nat.eqb (esrc e) a) (mE s)) /\
      (forall b, ins (nst g b) = filter (fun e => Nat.eqb (etgt e) b) (mE s))
  | None, None => True
  | _, _ => False
  end.
Proof.
  pose proof (run_ok thr os _ _ rep_empty) as H.
  destruct (run thr empty_graph os) as [[g x]|], (mg_run mg_empty os) as [[s y]|]; try contradiction; auto.
  destruct H as [R ->]. split; [reflexivity|]. split; [apply R|]. split; apply R.
Qed.
