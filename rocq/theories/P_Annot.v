(** Proofs about edge annotations. *)
From Verif Require Import Base M_Graph S_Graph P_Graph M_Range M_Netlist M_Annot S_Annot.
Notation thr := outEdgeIndexThreshold.

Definition ann_dep (l : list eattr) (sym : option str) (eb : range) (k : edgekind) : option (list eattr) :=
  match l with
  | [] => match setVariable default_attr sym eb with Some (x, true) => Some [setEdgeKind x k] | _ => None end
  | x :: r => match setVariable x sym eb with
              | Some (x', true) => Some (setEdgeKind x' k :: r)
              | Some (_, false) =>
                  match setVariable default_attr sym eb with
                  | Some (y, _) => Some (x :: r ++ [setEdgeKind y k]) | None => None end
              | None => None
              end
  end.

Lemma NoDup_eids nl a b s : Rep (ng nl) s -> NoDup (map eid (filter (to b) (outs (nst (ng nl) a)))).
Proof.
  intros R. rewrite (rep_outs _ _ R). pose proof (rep_ids _ _ R) as ND. revert ND.
  generalize (mE s). induction l as [|e l IH]; simpl; intros ND; [constructor|].
  inversion_clear ND as [|? ? H1 H2]. destruct (from a e); simpl; auto. destruct (to b e); simpl; auto.
  constructor; auto. intros H. apply H1. apply in_map_iff in H. destruct H as (x & <- & Hx).
  apply filter_In in Hx. destruct Hx as [Hx _]. apply filter_In in Hx. apply in_map. tauto.
Qed.

Lemma out_lt nl s a e : Rep (ng nl) s -> In e (outs (nst (ng nl) a)) -> eid e < nexte (ng nl).
Proof.
  intros R H. rewrite (rep_outs _ _ R) in H. apply filter_In in H. rewrite (rep_ne _ _ R). now apply (rep_fresh_e _ _ R).
Qed.

Lemma ann_ext nl nl' a b : outs (nst (ng nl') a) = outs (nst (ng nl) a) ->
  (forall e, In e (outs (nst (ng nl) a)) -> etgt e = b -> eatt nl' (eid e) = eatt nl (eid e)) ->
  pair_ann nl' a b = pair_ann nl a b.
Proof.
  intros HO HA. unfold pair_ann. rewrite HO. apply map_ext_in. intros e He. apply filter_In in He.
  destruct He as [H1 H2]. unfold to in H2. apply Nat.eqb_eq in H2. auto.
Qed.

(** Adding a new edge: one default annotation is appended for the pair. *)
Lemma push_ann nl a b s : Rep (ng nl) s ->
  let g := fst (pushEdge thr (ng nl) a b) in let e := snd (pushEdge thr (ng nl) a b) in
  let nl' := with_edge nl g e in
  eid e = nexte (ng nl) /\ eatt nl' (eid e) = default_attr /\
  outs (nst g a) = outs (nst (ng nl) a) ++ [e] /\ etgt e = b /\ esrc e = a /\
  (forall x, x <> a -> outs (nst g x) = outs (nst (ng nl) x)) /\
  (forall x i, In i (map eid (outs (nst (ng nl) x))) -> eatt nl' i = eatt nl i) /\ ninf nl' = ninf nl.
Proof.
  intros R g e nl'. assert (He : e = Edge (nexte (ng nl)) a b) by reflexivity.
  assert (Hi : eid e = nexte (ng nl)) by now rewrite He.
  split; [assumption|]. split; [|split; [|split; [|split; [|split; [|split]]]]]; try (now rewrite He).
  - unfold nl', with_edge. simpl. rewrite Nat.ltb_irrefl. apply upd_same.
  - unfold g. rewrite pushEdge_outs, Nat.eqb_refl. reflexivity.
  - intros x N. unfold g. rewrite pushEdge_outs. destruct (Nat.eqb_spec x a); congruence.
  - intros x i Hin. unfold nl', with_edge. cbn [eatt]. rewrite Hi, Nat.ltb_irrefl. apply upd_other.
    apply in_map_iff in Hin. destruct Hin as (y & <- & Hy). pose proof (out_lt _ _ _ _ R Hy). lia.
- reflexivity.
Qed.

Lemma addEdge_inv nl s a b nl' e : Rep (ng nl) s -> nl_addEdge nl a b = Some (nl', e) ->
  hasNode (ng nl) a = true /\ hasNode (ng nl) b = true /\
  ((find (to b) (outs (nst (ng nl) a)) = Some e /\ nl' = nl) \/
   (find (to b) (outs (nst (ng nl) a)) = None /\ e = snd (pushEdge thr (ng nl) a b) /\
    nl' = with_edge nl (fst (pushEdge thr (ng nl) a b)) e)).
Proof.
  intros R H. unfold nl_addEdge, g_addEdge in H.
  destruct (hasNode (ng nl) a); [|discriminate]. destruct (hasNode (ng nl) b); [|discriminate]. cbn [andb] in H.
  split; [reflexivity|]. split; [reflexivity|].
  unfold node_addEdge in H. rewrite (lookup_ok _ _ (rep_idx _ _ R a)) in H.
  destruct (find (to b) (outs (nst (ng nl) a))) as [e0|] eqn:F.
  - left. injection H as <- <-. split; [reflexivity|]. unfold with_edge.
    apply find_some in F. destruct F as [F _]. pose proof (out_lt _ _ _ _ R F) as L. apply Nat.ltb_lt in L. rewrite L.
    destruct nl; reflexivity.
  - right. destruct (pushEdge thr (ng nl) a b) as [g e1]. injection H as <- <-. auto.
Qed.

Lemma rep_of nl : reachable thr (ng nl) -> exists s, Rep (ng nl) s.
Proof. apply reachable_rep. Qed.

Lemma reach_push g a b : reachable thr g -> hasNode g a = true -> hasNode g b = true ->
  reachable thr (fst (pushEdge thr g a b)).
Proof.
  intros R Ha Hb. apply (reachable_step thr g (OAddNewEdge a b) _ (REdge (snd (pushEdge thr g a b))) R).
  cbn [step]. unfold g_addNewEdge. rewrite Ha, Hb. cbn [andb option_map]. unfold node_addNewEdge.
  destruct (pushEdge thr g a b); reflexivity.
Qed.
Lemma hasNode_push g a b n : hasNode (fst (pushEdge thr g a b)) n = hasNode g n.
Proof. rewrite !hasNode_memb. reflexivity. Qed.

(** Setting the attribute of one edge of the pair. *)
Lemma set_head nl s a b e r x : Rep (ng nl) s -> filter (to b) (outs (nst (ng nl) a)) = e :: r ->
  pair_ann (set_attr nl e x) a b = x :: map (fun e => eatt nl (eid e)) r.
Proof.
  intros R F. unfold pair_ann, set_attr. simpl. rewrite F. simpl. rewrite upd_same. f_equal.
  pose proof (NoDup_eids nl a b s R) as ND. rewrite F in ND. simpl in ND. inversion_clear ND as [|? ? H1 H2].
  apply map_ext_in. intros y Hy. apply upd_other. intros E. apply H1. rewrite <- E. now apply in_map.
Qed.
Lemma set_last nl s a b e l x : Rep (ng nl) s -> filter (to b) (outs (nst (ng nl) a)) = l ++ [e] ->
  pair_ann (set_attr nl e x) a b = map (fun e => eatt nl (eid e)) l ++ [x].
Proof.
  intros R F. unfold pair_ann, set_attr. simpl. rewrite F, map_app. simpl. rewrite upd_same. f_equal.
  pose proof (NoDup_eids nl a b s R) as ND. rewrite F, map_app in ND. 
  apply map_ext_in. intros y Hy. apply upd_other. intros E.
  apply NoDup_remove_2 in ND. apply ND. rewrite app_nil_r, <- E. now apply in_map.
Qed.
Lemma set_other nl s a b e x a' b' : Rep (ng nl) s -> In e (outs (nst (ng nl) a)) -> etgt e = b -> (a', b') <> (a, b) ->
  pair_ann (set_attr nl e x) a' b' = pair_ann nl a' b'.
Proof.
  intros R HI HT N. apply ann_ext; [reflexivity|]. intros e' He' HT'. simpl. apply upd_other. intros E.
  pose proof (Rep_mirror _ _ R) as M. pose proof (mir_ids _ M _ _ _ _ He' HI E) as ->.
  destruct (mir_out _ M _ _ He') as [S1 _]. destruct (mir_out _ M _ _ HI) as [S2 _]. congruence.
Qed.

(** Effect of adding an edge on annotations. *)
Lemma push_ann_pair nl s a b : Rep (ng nl) s ->
  let nl' := with_edge nl (fst (pushEdge thr (ng nl) a b)) (snd (pushEdge thr (ng nl) a b)) in
  filter (to b) (outs (nst (ng nl') a)) = filter (to b) (outs (nst (ng nl) a)) ++ [snd (pushEdge thr (ng nl) a b)] /\
  pair_ann nl' a b = pair_ann nl a b ++ [default_attr] /\
  (forall a' b', (a', b') <> (a, b) -> pair_ann nl' a' b' = pair_ann nl a' b') /\
  map (fun e => eatt nl' (eid e)) (filter (to b) (outs (nst (ng nl) a))) = pair_ann nl a b.
Proof.
  intros R nl'. destruct (push_ann nl a b s R) as (P1 & P2 & P3 & P4 & P5 & P6 & P7 & P8).
  assert (OLD : forall x y, map (fun e => eatt nl' (eid e)) (filter (to y) (outs (nst (ng nl) x))) = pair_ann nl x y).
  { intros x y. apply map_ext_in. intros e He. apply filter_In in He. apply (P7 x). apply in_map. tauto. }
  assert (F : filter (to b) (outs (nst (ng nl') a)) = filter (to b) (outs (nst (ng nl) a)) ++ [snd (pushEdge thr (ng nl) a b)]).
  { unfold nl', with_edge. cbn [ng]. rewrite P3, filter_app'. f_equal. simpl. unfold to. rewrite Nat.eqb_refl. reflexivity. }
  split; [exact F|]. split; [|split].
  - unfold pair_ann. rewrite F, map_app, OLD. cbn [map]. unfold nl'. now rewrite P2.
  - intros a' b' N. unfold pair_ann, nl' at 2, with_edge. cbn [ng].
    destruct (Nat.eq_dec a' a) as [->|NA].
    + rewrite P3, filter_app', map_app. rewrite OLD.
      assert (filter (to b') [snd (pushEdge thr (ng nl) a b)] = []) as ->; [|apply app_nil_r].
      cbn [filter]. unfold to. rewrite P4. destruct (Nat.eqb_spec b b'); [congruence|reflexivity].
    + rewrite P6 by assumption. apply OLD.
  - apply OLD.
Qed.

Lemma head_find {A} (p : A -> bool) l e : find p l = Some e -> exists r, filter p l = e :: r.
Proof. rewrite find_filter_hd. destruct (filter p l) as [|x r]; simpl; [discriminate|]. intros [= ->]. eauto. Qed.

Lemma plain_ann nl a b nl' : reachable thr (ng nl) -> addPlain nl a b = Some nl' ->
  reachable thr (ng nl') /\ ninf nl' = ninf nl /\
  pair_ann nl' a b = (match pair_ann nl a b with [] => [default_attr] | l => l end) /\
  (forall a' b', (a', b') <> (a, b) -> pair_ann nl' a' b' = pair_ann nl a' b').
Proof.
  intros RG H. destruct (rep_of nl RG) as [s R]. unfold addPlain in H.
  destruct (nl_addEdge nl a b) as [[nl1 e]|] eqn:E; [|discriminate]. injection H as <-. simpl.
  destruct (addEdge_inv _ _ _ _ _ _ R E) as (Ha & Hb & [[F ->]|(F & -> & ->)]).
  - repeat split; auto. destruct (head_find _ _ _ F) as [r Fr]. unfold pair_ann. rewrite Fr. reflexivity.
  - destruct (push_ann_pair nl s a b R) as (P1 & P2 & P3 & _). split; [now apply reach_push|].
    split; [reflexivity|]. split; [|exact P3]. rewrite P2. unfold pair_ann.
    apply find_none_filter in F. now rewrite F.
Qed.

Lemma dep_ann nl a b sym r k nl' : reachable thr (ng nl) -> addDependency nl a b sym r k = Some nl' ->
  reachable thr (ng nl') /\ ninf nl' = ninf nl /\
  ann_dep (pair_ann nl a b) sym (edgeBounds nl a r) k = Some (pair_ann nl' a b) /\
  (forall a' b', (a', b') <> (a, b) -> pair_ann nl' a' b' = pair_ann nl a' b').
Proof.
  intros RG H. destruct (rep_of nl RG) as [s R]. unfold addDependency in H.
  destruct (nl_addEdge nl a b) as [[nl1 e]|] eqn:E; [|discriminate].
  destruct (addEdge_inv _ _ _ _ _ _ R E) as (Ha & Hb & [[F ->]|(F & EE & ->)]).
  - (* existing first edge *)
    destruct (head_find _ _ _ F) as [rr Fr]. apply find_some in F. destruct F as [FI FT]. unfold to in FT. apply Nat.eqb_eq in FT.
    assert (PA : pair_ann nl a b = eatt nl (eid e) :: map (fun e => eatt nl (eid e)) rr) by (unfold pair_ann; now rewrite Fr).
    rewrite PA. cbn [ann_dep]. destruct (setVariable (eatt nl (eid e)) sym (edgeBounds nl a r)) as [[x fl]|]; [|discriminate].
    destruct fl.
    + injection H as <-. split; [assumption|]. split; [reflexivity|]. split.
      * f_equal. symmetry. now apply (set_head nl s).
      * intros a' b' N. now apply (set_other nl s a b).
    + unfold nl_addNewEdge, g_addNewEdge in H. rewrite Ha, Hb in H. cbn [andb] in H. unfold node_addNewEdge in H.
      destruct (push_ann nl a b s R) as (Q1 & Q2 & Q3 & Q4 & Q5 & Q6 & Q7 & Q8).
      destruct (push_ann_pair nl s a b R) as (P1 & P2 & P3 & P4).
      pose proof (reach_push (ng nl) a b RG Ha Hb) as RG2.
      destruct (pushEdge thr (ng nl) a b) as [g2 e2]. cbn [fst snd] in *. rewrite Q2 in H.
      destruct (setVariable default_attr sym (edgeBounds nl a r)) as [[y fl2]|] eqn:SV; [|discriminate]. injection H as <-.
      set (nl2 := with_edge nl g2 e2) in *. destruct (reachable_rep thr (ng nl2) RG2) as [s2 R2].
      split; [exact RG2|]. split; [reflexivity|]. split.
      * f_equal. rewrite (set_last nl2 s2 a b e2 _ _ R2 P1), P4, PA. reflexivity.
      * intros a' b' N. rewrite (set_other nl2 s2 a b); auto. unfold nl2. cbn [with_edge ng]. rewrite Q3. apply in_app_iff. right. now left.
  - (* new edge *)
    destruct (push_ann nl a b s R) as (Q1 & Q2 & Q3 & Q4 & Q5 & Q6 & Q7 & Q8).
    destruct (push_ann_pair nl s a b R) as (P1 & P2 & P3 & P4).
    pose proof (reach_push (ng nl) a b RG Ha Hb) as RG2. rewrite <- EE in *.
    apply find_none_filter in F. assert (PA : pair_ann nl a b = []) by (unfold pair_ann; now rewrite F).
    rewrite PA. cbn [ann_dep]. rewrite Q2 in H.
    set (nl2 := with_edge nl (fst (pushEdge thr (ng nl) a b)) e) in *.
    destruct (reachable_rep thr (ng nl2) RG2) as [s2 R2].
    destruct (setVariable default_attr sym (edgeBounds nl a r)) as [[y fl2]|] eqn:SV; [|discriminate].
    destruct fl2.
    + injection H as <-. split; [exact RG2|]. split; [reflexivity|]. split.
      * f_equal. rewrite (set_last nl2 s2 a b e [] _ R2); [reflexivity|]. now rewrite P1, F.
      * intros a' b' N. rewrite (set_other nl2 s2 a b); auto. unfold nl2. cbn [with_edge ng]. rewrite Q3. apply in_app_iff. right. now left.
    + unfold setVariable in SV. simpl in SV. discriminate.
Qed.

(** ** Pure properties of annotation lists *)
Definition covers (x : eattr) (s : str) (r : range) : Prop :=
  asym x = Some s /\ forall i, bit_in r i -> bit_in (abounds x) i.
Definition lcov (l : list eattr) (s : str) (i : Z) : Prop := exists x, In x l /\ asym x = Some s /\ bit_in (abounds x) i.
(** All edges carry [s], except that a lone edge may still be bare. *)
Definition mono (s : str) (l : list eattr) : Prop :=
  (forall x, In x l -> asym x = Some s) \/ exists x, l = [x] /\ asym x = None.

Lemma contiguous_union a b u i : isContiguousWith a b = Some true -> unionWith a b = Some u ->
  bit_in u i <-> bit_in a i \/ bit_in b i.
Proof.
  unfold unionWith. intros C. rewrite C. intros [= <-]. unfold isContiguousWith in C.
  destruct (add32 (upper a) 1) as [p|] eqn:E1; [|discriminate].
  destruct (lower b <=? p)%Z eqn:E2; [|discriminate]. destruct (add32 (upper b) 1) as [q|] eqn:E3; [|discriminate].
  unfold add32 in *. destruct (is_int32 (upper a + 1)); [|discriminate]. destruct (is_int32 (upper b + 1)); [|discriminate].
  injection E1 as <-. injection E3 as <-. injection C as C. apply Z.leb_le in C, E2. unfold bit_in, lower, upper in *. simpl. lia.
Qed.

Lemma set_same x s r x' : asym x = Some s -> setVariable x (Some s) r = Some (x', true) ->
  asym x' = Some s /\ forall i, bit_in (abounds x') i <-> bit_in (abounds x) i \/ bit_in r i.
Proof.
  intros A H. unfold setVariable in H. rewrite A in H. assert (str_eqb s s = true) as E by now apply str_eqb_eq. rewrite E in H.
  destruct (isContiguousWith (abounds x) r) as [[|]|] eqn:C; try discriminate.
  destruct (unionWith (abounds x) r) as [u|] eqn:U; [|discriminate]. injection H as <-. simpl. split; [first [assumption|reflexivity]|].
  intros i. now apply contiguous_union.
Qed.
Lemma set_bare x s r x' b : asym x = None -> setVariable x (Some s) r = Some (x', b) ->
  b = true /\ asym x' = Some s /\ abounds x' = r.
Proof. intros A H. unfold setVariable in H. rewrite A in H. injection H as <- <-. auto. Qed.

Lemma ann_dep_mono s l r k l' : mono s l -> ann_dep l (Some s) r k = Some l' ->
  (forall x, In x l' -> asym x = Some s) /\
  (forall i, lcov l' s i <-> lcov l s i \/ bit_in r i) /\
  (exists x, In x l' /\ covers x s r) /\
  (forall r0, (exists x, In x l /\ covers x s r0) -> exists x, In x l' /\ covers x s r0).
Proof.
  intros M H. unfold ann_dep in H. destruct l as [|x rest].
  - destruct (setVariable default_attr (Some s) r) as [[y []]|] eqn:SV; try discriminate. injection H as <-.
    apply set_bare in SV; [|reflexivity]. destruct SV as (_ & S1 & S2).
    assert (C : forall z, In z [setEdgeKind y k] -> asym z = Some s /\ abounds z = r) by (intros z [<-|[]]; auto).
    split; [intros z Hz; now apply C|]. split; [|split].
    + intros i. split.
      * intros (z & Hz & _ & B). right. destruct (C z Hz) as [_ <-]. exact B.
      * intros [(z & [] & _)|B]. exists (setEdgeKind y k). simpl. rewrite S2. auto.
    + exists (setEdgeKind y k). split; [now left|]. split; [exact S1|]. simpl. rewrite S2. auto.
    + intros r0 (z & [] & _).
  - destruct M as [M|(y & E & NB)].
    + pose proof (M x (or_introl eq_refl)) as AX.
      destruct (setVariable x (Some s) r) as [[x' []]|] eqn:SV; try discriminate.
      * injection H as <-. destruct (set_same _ _ _ _ AX SV) as [A1 A2].
        split; [intros z [<-|Hz]; [exact A1|apply M; now right]|]. split; [|split].
        -- intros i. split.
           ++ intros (z & [<-|Hz] & Az & B).
              ** simpl in B. apply A2 in B. destruct B as [B|B]; [left|now right]. exists x. split; [now left|auto].
              ** left. exists z. split; [now right|auto].
           ++ intros [(z & [<-|Hz] & Az & B)|B].
              ** exists (setEdgeKind x' k). split; [now left|]. split; [exact A1|]. simpl. apply A2. now left.
              ** exists z. split; [now right|auto].
              ** exists (setEdgeKind x' k). split; [now left|]. split; [exact A1|]. simpl. apply A2. now right.
        -- exists (setEdgeKind x' k). split; [now left|]. split; [exact A1|]. intros i B. simpl. apply A2. now right.
        -- intros r0 (z & [<-|Hz] & C1 & C2).
           ++ exists (setEdgeKind x' k). split; [now left|]. split; [exact A1|]. intros i B. simpl. apply A2. left. auto.
           ++ exists z. split; [now right|]. split; auto.
      * destruct (setVariable default_attr (Some s) r) as [[y fl]|] eqn:SD; [|discriminate]. injection H as <-.
        apply set_bare in SD; [|reflexivity]. destruct SD as (_ & S1 & S2).
        assert (IN : forall z, In z (x :: rest ++ [setEdgeKind y k]) <-> In z (x :: rest) \/ z = setEdgeKind y k).
        { intros z. rewrite app_comm_cons, in_app_iff. simpl. intuition. }
        split; [|split; [|split]].
        -- intros z Hz. apply IN in Hz. destruct Hz as [Hz| ->]; [now apply M|exact S1].
        -- intros i. split.
           ++ intros (z & Hz & Az & B). apply IN in Hz. destruct Hz as [Hz| ->].
              ** left. exists z. auto.
              ** right. simpl in B. now rewrite S2 in B.
           ++ intros [(z & Hz & Az & B)|B].
              ** exists z. split; [apply IN; now left|auto].
              ** exists (setEdgeKind y k). split; [apply IN; now right|]. simpl. rewrite S2. auto.
        -- exists (setEdgeKind y k). split; [apply IN; now right|]. split; [exact S1|]. simpl. rewrite S2. auto.
        -- intros r0 (z & Hz & C). exists z. split; [apply IN; now left|exact C].
    + injection E as -> ->. destruct (setVariable y (Some s) r) as [[x' fl]|] eqn:SV; [|discriminate].
      apply set_bare in SV; [|exact NB]. destruct SV as (-> & S1 & S2). injection H as <-.
      assert (C : forall z, In z [setEdgeKind x' k] -> asym z = Some s /\ abounds z = r) by (intros z [<-|[]]; auto).
      split; [intros z Hz; now apply C|]. split; [|split].
      * intros i. split.
        -- intros (z & Hz & _ & B). right. destruct (C z Hz) as [_ <-]. exact B.
        -- intros [(z & [<-|[]] & A & _)|B]; [congruence|]. exists (setEdgeKind x' k). simpl. rewrite S2. auto.
      * exists (setEdgeKind x' k). split; [now left|]. split; [exact S1|]. simpl. rewrite S2. auto.
      * intros r0 (z & [<-|[]] & A & _). congruence.
Qed.

Lemma edgeBounds_wanted nl a r i : bit_in (edgeBounds nl a r) i <-> wanted nl a r i.
Proof.
  unfold edgeBounds, wanted. destruct (nbounds (ninf nl a)) as [nb|].
  - destruct (overlaps r nb) eqn:O.
    + assert (HJ : exists j, bit_in r j /\ bit_in nb j).
      { exists (Z.max (lower r) (lower nb)). unfold overlaps in O. apply andb_true_iff in O. rewrite !Z.leb_le in O.
        unfold bit_in, lower, upper in *. lia. }
      unfold overlaps in O. apply andb_true_iff in O. rewrite !Z.leb_le in O. split.
      * intros B. split; [unfold bit_in, lower, upper in *; simpl in B; lia|]. intros nb' [= <-] _. unfold bit_in, lower, upper in *. simpl in B. lia.
      * intros [B C]. specialize (C nb eq_refl HJ). unfold bit_in, lower, upper in *. simpl. lia.
    + split; [|tauto]. intros B. split; [exact B|]. intros nb' [= <-] (j & J1 & J2). exfalso.
      unfold overlaps in O. apply andb_false_iff in O. rewrite !Z.leb_gt in O. unfold bit_in, lower, upper in *. lia.
  - split; [|tauto]. intros B. split; [exact B|]. discriminate.
Qed.

(** Calls for the pair, as (bounds). *)
Fixpoint pair_calls (a b : nat) (ds : list dep) : list range :=
  match ds with
  | [] => []
  | DDep x y _ r _ :: l => if Nat.eqb x a && Nat.eqb y b then r :: pair_calls a b l else pair_calls a b l
  | DPlain _ _ :: l => pair_calls a b l
  end.
Definition one_symbol (a b : nat) (s : str) (ds : list dep) : Prop :=
  forall r k sy, In (DDep a b sy r k) ds -> sy = Some s.

Lemma drun_mono : forall ds nl nl' a b s, reachable thr (ng nl) -> one_symbol a b s ds -> mono s (pair_ann nl a b) ->
  drun nl ds = Some nl' ->
  reachable thr (ng nl') /\ ninf nl' = ninf nl /\
  mono s (pair_ann nl' a b) /\
  (forall i, lcov (pair_ann nl' a b) s i <-> lcov (pair_ann nl a b) s i \/ exists r, In r (pair_calls a b ds) /\ wanted nl a r i) /\
  (forall r, In r (pair_calls a b ds) -> exists x, In x (pair_ann nl' a b) /\ covers x s (edgeBounds nl a r)) /\
  (forall r0, (exists x, In x (pair_ann nl a b) /\ covers x s r0) -> exists x, In x (pair_ann nl' a b) /\ covers x s r0).
Proof.
  induction ds as [|d ds IH]; intros nl nl' a b s RG OS M H; simpl in H.
  - injection H as <-. split; [assumption|]. split; [reflexivity|]. split; [assumption|]. simpl.
    split; [|split]; [|tauto|auto]. intros i. split; [auto|]. intros [B|(r & [] & _)]. exact B.
  - destruct (dstep nl d) as [nl1|] eqn:S; [|discriminate].
    assert (OS' : one_symbol a b s ds) by (intros r k sy Hin; apply (OS r k); now right).
    destruct d as [x y|x y sy r k]; cbn [dstep] in S.
    + destruct (plain_ann _ _ _ _ RG S) as (R1 & N1 & P1 & P2).
      assert (M1 : mono s (pair_ann nl1 a b) /\ (forall i, lcov (pair_ann nl1 a b) s i <-> lcov (pair_ann nl a b) s i) /\
        (forall r0, (exists x, In x (pair_ann nl a b) /\ covers x s r0) -> exists x, In x (pair_ann nl1 a b) /\ covers x s r0)).
      { destruct (Nat.eq_dec x a) as [->|NA]; [destruct (Nat.eq_dec y b) as [->|NB]|]; try (rewrite P2 by congruence; split; [exact M|split; [tauto|auto]]).
        rewrite P1. destruct (pair_ann nl a b); [|split; [exact M|split; [tauto|auto]]]. split.
        - right. exists default_attr. split; reflexivity.
        - split; [|intros r0 (z & [] & _)]. intros i. split; [intros (z & [<-|[]] & A & _); discriminate|intros (z & [] & _)]. }
      destruct M1 as (M1 & L1 & C1). destruct (IH nl1 nl' a b s R1 OS' M1 H) as (I1 & I2 & I3 & I4 & I5 & I6).
      split; [assumption|]. split; [congruence|]. split; [assumption|]. cbn [pair_calls].
      split; [|split].
      * intros i. rewrite I4, L1. unfold wanted. rewrite N1. reflexivity.
      * intros r Hr. destruct (I5 r Hr) as (z & Hz & C). exists z. split; [exact Hz|]. unfold edgeBounds in *. now rewrite N1 in C.
      * auto.
    + destruct (dep_ann _ _ _ _ _ _ _ RG S) as (R1 & N1 & P1 & P2).
      cbn [pair_calls]. destruct (Nat.eqb_spec x a) as [->|NA]; [destruct (Nat.eqb_spec y b) as [->|NB]|]; simpl andb; cbv iota.
      * assert (SY : sy = Some s) by (apply (OS r k); now left). rewrite SY in P1.
        destruct (ann_dep_mono _ _ _ _ _ M P1) as (A1 & A2 & A3 & A4).
        destruct (IH nl1 nl' a b s R1 OS' (or_introl A1) H) as (I1 & I2 & I3 & I4 & I5 & I6).
        assert (WE : forall r i, wanted nl1 a r i <-> wanted nl a r i) by (intros; unfold wanted; rewrite N1; reflexivity).
        assert (EE : forall r, edgeBounds nl1 a r = edgeBounds nl a r) by (intros; unfold edgeBounds; rewrite N1; reflexivity).
        split; [assumption|]. split; [congruence|]. split; [assumption|]. split; [|split].
        -- intros i. rewrite I4, A2, edgeBounds_wanted. split.
           ++ intros [[B|B]|(r' & H1 & H2)]; [now left|right; exists r; split; [now left|exact B]|].
              right. exists r'. split; [now right|]. now apply WE.
           ++ intros [B|(r' & [<-|H1] & H2)]; [now left; left|now left; right|]. right. exists r'. split; [exact H1|]. now apply WE.
        -- intros r' [<-|Hr]; [|rewrite <- EE; auto]. apply I6. exact A3.
        -- intros r0 HX. apply I6, A4, HX.
      * rewrite <- (P2 a b) in M by congruence. destruct (IH nl1 nl' a b s R1 OS' M H) as (I1 & I2 & I3 & I4 & I5 & I6).
        rewrite (P2 a b) in * by congruence.
        split; [assumption|]. split; [congruence|]. split; [assumption|]. split; [|split].
        -- intros i. rewrite I4. unfold wanted. rewrite N1. reflexivity.
        -- intros r' Hr. destruct (I5 r' Hr) as (z & Hz & C). exists z. split; [exact Hz|]. unfold edgeBounds in *. now rewrite N1 in C.
        -- auto.
      * rewrite <- (P2 a b) in M by congruence. destruct (IH nl1 nl' a b s R1 OS' M H) as (I1 & I2 & I3 & I4 & I5 & I6).
        rewrite (P2 a b) in * by congruence.
        split; [assumption|]. split; [congruence|]. split; [assumption|]. split; [|split].
        -- intros i. rewrite I4. unfold wanted. rewrite N1. reflexivity.
        -- intros r' Hr. destruct (I5 r' Hr) as (z & Hz & C). exists z. split; [exact Hz|]. unfold edgeBounds in *. now rewrite N1 in C.
        -- auto.
Qed.

Lemma pair_ann_in nl a b x : In x (pair_ann nl a b) <->
  exists e, In e (outs (nst (ng nl) a)) /\ etgt e = b /\ eatt nl (eid e) = x.
Proof.
  unfold pair_ann. rewrite in_map_iff. split.
  - intros (e & <- & He). apply filter_In in He. destruct He as [H1 H2]. unfold to in H2. apply Nat.eqb_eq in H2. eauto.
  - intros (e & H1 & H2 & H3). exists e. split; [exact H3|]. apply filter_In. split; [exact H1|]. unfold to. now apply Nat.eqb_eq.
Qed.
Lemma in_pair_calls a b ds r : In r (pair_calls a b ds) <-> exists s k, In (DDep a b s r k) ds.
Proof.
  induction ds as [|d ds IH]; simpl; [split; [tauto|now intros (s & k & [])]|].
  destruct d as [x y|x y s' r' k'].
  - rewrite IH. split; intros (s & k & H); exists s, k; [now right|]. destruct H as [H|H]; [discriminate|exact H].
  - destruct (Nat.eqb_spec x a) as [->|NA]; [destruct (Nat.eqb_spec y b) as [->|NB]|]; simpl andb; cbv iota; simpl; rewrite IH.
    + split.
      * intros [->|(s & k & H)]; [exists s', k'; now left|exists s, k; now right].
      * intros (s & k & [H|H]); [left; congruence|right; eauto].
    + split; intros (s & k & H); exists s, k; [now right|]. destruct H as [H|H]; [congruence|exact H].
    + split; intros (s & k & H); exists s, k; [now right|]. destruct H as [H|H]; [congruence|exact H].
Qed.

Lemma c27 nl ds nl' a b s : reachable thr (ng nl) ->
  (forall e, In e (outs (nst (ng nl) a)) -> etgt e <> b) ->
  one_symbol a b s ds -> drun nl ds = Some nl' ->
  (forall r k, In (DDep a b (Some s) r k) ds -> Covered nl' a b s (wanted nl a r)) /\
  (forall i, (exists e, In e (outs (nst (ng nl') a)) /\ etgt e = b /\ asym (eatt nl' (eid e)) = Some s /\
                        bit_in (abounds (eatt nl' (eid e))) i) <->
             exists r k, In (DDep a b (Some s) r k) ds /\ wanted nl a r i).
Proof.
  intros RG NE OS H.
  assert (PA : pair_ann nl a b = []).
  { unfold pair_ann. assert (filter (to b) (outs (nst (ng nl) a)) = []) as ->; [|reflexivity].
    apply filter_nil_iff. intros e He. unfold to. apply Nat.eqb_neq. auto. }
  assert (M : mono s (pair_ann nl a b)) by (rewrite PA; left; intros x []).
  destruct (drun_mono ds nl nl' a b s RG OS M H) as (I1 & I2 & I3 & I4 & I5 & I6). split.
  - intros r k Hin. destruct (I5 r) as (x & Hx & C1 & C2); [apply in_pair_calls; eauto|].
    apply pair_ann_in in Hx. destruct Hx as (e & E1 & E2 & <-). exists e. split; [exact E1|]. split; [exact E2|].
    split; [exact C1|]. intros i W. now apply C2, edgeBounds_wanted.
  - intros i. specialize (I4 i). split.
    + intros (e & E1 & E2 & E3 & E4). assert (L : lcov (pair_ann nl' a b) s i).
      { exists (eatt nl' (eid e)). split; [apply pair_ann_in; eauto|auto]. }
      apply I4 in L. destruct L as [(x & Hx & _)|(r & H1 & H2)]; [rewrite PA in Hx; destruct Hx|].
      apply in_pair_calls in H1. destruct H1 as (sy & k & H1). rewrite (OS r k sy H1) in H1. eauto.
    + intros (r & k & H1 & H2). assert (L : lcov (pair_ann nl' a b) s i).
      { apply I4. right. exists r. split; [apply in_pair_calls; eauto|exact H2]. }
      destruct L as (x & Hx & A & B). apply pair_ann_in in Hx. destruct Hx as (e & E1 & E2 & <-). eauto 6.
Qed.
