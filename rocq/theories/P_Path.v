(** Proofs about cones and path finding. *)
From Verif Require Import Base M_Graph S_Graph P_Graph S_Reach M_Range M_Netlist S_Netlist M_DFS P_DFS M_Path.

(** ** Closure of the node list *)
Lemma closed_fwd nl pred : WF nl -> Closed (nouts nl) etgt pred (gnodes (ng nl)).
Proof. intros W v e Hv He _. destruct (mir_out _ W v e He) as (_ & _ & H & _). exact H. Qed.
Lemma closed_bwd nl pred : WF nl -> Closed (nins nl) esrc pred (gnodes (ng nl)).
Proof. intros W v e Hv He _. destruct (mir_in _ W v e He) as (_ & _ & H & _). exact H. Qed.

Lemma dfs_fwd_total nl pred s : WF nl -> In s (gnodes (ng nl)) ->
  exists tr, dfs_fwd nl pred s = Some tr.
Proof. intros W Hs. apply dfs_terminates; [apply W|assumption|now apply closed_fwd]. Qed.
Lemma dfs_bwd_total nl pred s : WF nl -> In s (gnodes (ng nl)) ->
  exists tr, dfs_bwd nl pred s = Some tr.
Proof. intros W Hs. apply dfs_terminates; [apply W|assumption|now apply closed_bwd]. Qed.

(** ** Arcs of the instances *)
Lemma isState_false nl n : isState nl n = false <-> nkind (ninf nl n) <> KState.
Proof.
  unfold isState, nlkind. destruct (kind_eqb (nkind (ninf nl n)) KState) eqn:E.
  - apply kind_eqb_eq in E. split; [discriminate|tauto].
  - split; [|reflexivity]. intros _ H. apply kind_eqb_eq in H. congruence.
Qed.

Lemma arc_enabled nl a b : Arc (nouts nl) etgt (pred_enabled nl) a b <-> Conn nl a b.
Proof.
  unfold Arc, Conn, pred_enabled, edisabled, nouts. split.
  - intros (e & H1 & H2 & H3). exists e. rewrite negb_true_iff in H2. auto.
  - intros (e & H1 & H2 & H3). exists e. rewrite H3. auto.
Qed.

Lemma arc_comb nl a b : Arc (nouts nl) etgt (pred_comb nl) a b <-> Comb nl a b.
Proof.
  unfold Arc, Comb, Conn, pred_comb, edisabled, nouts. split.
  - intros (e & H1 & H2 & H3). rewrite andb_true_iff, !negb_true_iff, isState_false in H2.
    split; [exists e; tauto|]. subst b. tauto.
  - intros ((e & H1 & H2 & H3) & H4). exists e. rewrite andb_true_iff, !negb_true_iff, isState_false.
    subst b. auto.
Qed.

Lemma conn_in nl a b : WF nl ->
  (Conn nl a b <-> exists e, In e (ins (nst (ng nl) b)) /\ esrc e = a /\ adis (eatt nl (eid e)) = false).
Proof.
  intros W. split.
  - intros (e & H1 & H2 & H3). exists e. destruct (mir_out _ W a e H1) as (Hs & _ & _ & Hi).
    subst b. auto.
  - intros (e & H1 & H2 & H3). exists e. destruct (mir_in _ W b e H1) as (Hs & _ & _ & Hi).
    subst a. auto.
Qed.

Lemma arc_comb_back nl a b : WF nl ->
  (Arc (nins nl) esrc (pred_comb_back nl) b a <-> CombBack nl b a).
Proof.
  intros W. unfold Arc, CombBack, pred_comb_back, edisabled, nins. rewrite (conn_in nl a b W). split.
  - intros (e & H1 & H2 & H3). rewrite andb_true_iff, !negb_true_iff, isState_false in H2.
    split; [exists e; tauto|]. subst a. tauto.
  - intros ((e & H1 & H2 & H3) & H4). exists e. rewrite andb_true_iff, !negb_true_iff, isState_false.
    subst a. auto.
Qed.

Lemma reach_iff (R Q : nat -> nat -> Prop) : (forall a b, R a b <-> Q a b) ->
  forall a b, Reach R a b <-> Reach Q a b.
Proof. intros H a b. split; induction 1; econstructor; eauto; now apply H. Qed.

(** ** C09 *)
Lemma fanOut_spec nl n : WF nl -> In n (gnodes (ng nl)) ->
  exists l, getCombFanOut nl n = Some l /\ NoDup l /\ hd_error l = Some n /\
    forall m, In m l <-> Reach (Comb nl) n m.
Proof.
  intros W Hn. destruct (dfs_fwd_total nl (pred_comb nl) n W Hn) as [tr E].
  unfold getCombFanOut. rewrite E. exists (ev_nodes tr).
  destruct (dfs_spec _ _ _ _ _ _ E) as (H1 & H2 & H3 & _). repeat split; auto.
  - intros Hm. apply (reach_iff _ _ (arc_comb nl)), H2, Hm.
  - intros Hm. apply H2, (reach_iff _ _ (arc_comb nl)), Hm.
Qed.

Lemma fanIn_spec nl n : WF nl -> In n (gnodes (ng nl)) ->
  exists l, getCombFanIn nl n = Some l /\ NoDup l /\ hd_error l = Some n /\
    forall m, In m l <-> Reach (CombBack nl) n m.
Proof.
  intros W Hn. destruct (dfs_bwd_total nl (pred_comb_back nl) n W Hn) as [tr E].
  unfold getCombFanIn. rewrite E. exists (ev_nodes tr).
  destruct (dfs_spec _ _ _ _ _ _ E) as (H1 & H2 & H3 & _).
  assert (HA : forall a b, Arc (nins nl) esrc (pred_comb_back nl) a b <-> CombBack nl a b)
    by (intros; now apply arc_comb_back).
  repeat split; auto.
  - intros Hm. apply (reach_iff _ _ HA), H2, Hm.
  - intros Hm. apply H2, (reach_iff _ _ HA), Hm.
Qed.

(** ** C10 *)
Lemma link_one nl a b : Conn nl a b -> CombLink nl a b.
Proof. intros H. exists []. simpl. split; [tauto|intros m []]. Qed.

Lemma link_trans nl a m b : CombLink nl a m -> nkind (ninf nl m) <> KState -> CombLink nl m b ->
  CombLink nl a b.
Proof.
  intros (l1 & W1 & H1) Hm (l2 & W2 & H2). exists (l1 ++ m :: l2). split.
  - pose proof (walk_app (Conn nl) (a :: l1) m (l2 ++ [b]) W1 W2) as H.
    rewrite <- app_assoc. exact H.
  - intros x Hx. apply in_app_iff in Hx. destruct Hx as [Hx|[<-|Hx]]; auto.
Qed.

Lemma reach_comb_link nl a b : Reach (Comb nl) a b ->
  a = b \/ (nkind (ninf nl b) <> KState /\ CombLink nl a b).
Proof.
  induction 1 as [|x y H IH [Hc Hk]]; [now left|right]. split; [assumption|].
  destruct IH as [->|[Hx Hl]]; [now apply link_one|].
  eapply link_trans; eauto using link_one.
Qed.

Lemma link_reach_comb nl a b : CombLink nl a b -> nkind (ninf nl b) <> KState -> Reach (Comb nl) a b.
Proof.
  intros (mid & W & Hm) Hb. revert a W. induction mid as [|m mid IH]; intros a W.
  - simpl in W. apply reach_one. split; tauto.
  - simpl in W. destruct W as [Ham W]. eapply reach_trans.
    + apply reach_one. split; [exact Ham|]. apply Hm. now left.
    + apply IH; [intros x Hx; apply Hm; now right|exact W].
Qed.

Lemma reach_back_link nl a b : Reach (CombBack nl) b a ->
  a = b \/ (nkind (ninf nl a) <> KState /\ CombLink nl a b).
Proof.
  induction 1 as [|x y H IH [Hc Hk]]; [now left|right]. split; [assumption|].
  destruct IH as [->|[Hx Hl]]; [now apply link_one|].
  eapply link_trans; [apply link_one; exact Hc|exact Hx|exact Hl].
Qed.

Lemma link_reach_back nl a b : CombLink nl a b -> nkind (ninf nl a) <> KState -> Reach (CombBack nl) b a.
Proof.
  intros (mid & W & Hm) Ha. revert a W Ha. induction mid as [|m mid IH]; intros a W Ha.
  - simpl in W. apply reach_one. split; tauto.
  - simpl in W. destruct W as [Ham W]. eapply reach_step.
    + apply (IH (fun x Hx => Hm x (or_intror Hx)) m W). apply Hm. now left.
    + split; [exact Ham|exact Ha].
Qed.

Lemma c10_exact nl a b lo li : WF nl -> In a (gnodes (ng nl)) -> In b (gnodes (ng nl)) -> a <> b ->
  getCombFanOut nl a = Some lo -> getCombFanIn nl b = Some li ->
  (In b lo <-> nkind (ninf nl b) <> KState /\ CombLink nl a b) /\
  (In a li <-> nkind (ninf nl a) <> KState /\ CombLink nl a b).
Proof.
  intros W Ha Hb Hab Eo Ei.
  destruct (fanOut_spec nl a W Ha) as (lo' & Eo' & _ & _ & So). rewrite Eo' in Eo. injection Eo as ->.
  destruct (fanIn_spec nl b W Hb) as (li' & Ei' & _ & _ & Si). rewrite Ei' in Ei. injection Ei as ->.
  rewrite So, Si. split; split.
  - intros H. destruct (reach_comb_link _ _ _ H); [congruence|assumption].
  - intros [H1 H2]. now apply link_reach_comb.
  - intros H. destruct (reach_back_link _ _ _ H); [congruence|assumption].
  - intros [H1 H2]. now apply link_reach_back.
Qed.

Lemma c10_dual nl a b lo li : WF nl -> In a (gnodes (ng nl)) -> In b (gnodes (ng nl)) ->
  nkind (ninf nl a) <> KState -> nkind (ninf nl b) <> KState ->
  getCombFanOut nl a = Some lo -> getCombFanIn nl b = Some li ->
  (In b lo <-> In a li).
Proof.
  intros W Ha Hb Ka Kb Eo Ei. destruct (Nat.eq_dec a b) as [->|Hab].
  - destruct (fanOut_spec nl b W Ha) as (lo' & Eo' & _ & _ & So). rewrite Eo' in Eo. injection Eo as ->.
    destruct (fanIn_spec nl b W Hb) as (li' & Ei' & _ & _ & Si). rewrite Ei' in Ei. injection Ei as ->.
    rewrite So, Si. split; constructor.
  - destruct (c10_exact nl a b lo li W Ha Hb Hab Eo Ei) as [H1 H2]. tauto.
Qed.

(** ** Path finding *)
Lemma tm_find_cons m a b n : tm_find ((a, b) :: m) n = if Nat.eqb a n then Some b else tm_find m n.
Proof. unfold tm_find. simpl. now destruct (Nat.eqb a n). Qed.

Lemma pf_visit_spec : forall tr m,
  pf_visit tr m = fold_left (fun om e => match om with
                                | None => None
                                | Some m => match tm_find m (etgt e) with
                                            | Some _ => None
                                            | None => Some ((etgt e, esrc e) :: m)
                                            end end) (ev_edges tr) (Some m).
Proof.
  induction tr as [|[n|e|n|] tr IH]; intros m; simpl; auto.
  destruct (tm_find m (etgt e)) eqn:F; [|apply IH].
  clear. induction (ev_edges tr) as [|x l IH]; simpl; auto.
Qed.

Definition edge_map (es : list edge) : tmap := rev (map (fun e => (etgt e, esrc e)) es).

Lemma edge_map_keys es : map fst (edge_map es) = rev (map etgt es).
Proof. unfold edge_map. now rewrite map_rev, map_map. Qed.

Lemma tm_find_none m n : ~ In n (map fst m) -> tm_find m n = None.
Proof.
  induction m as [|[a b] m IH]; intros H; [reflexivity|]. rewrite tm_find_cons.
  destruct (Nat.eqb_spec a n) as [->|]; [exfalso; apply H; now left|]. apply IH. intros K. apply H. now right.
Qed.

Lemma tm_find_some m n p : tm_find m n = Some p -> In (n, p) m.
Proof.
  induction m as [|[a b] m IH]; [discriminate|]. rewrite tm_find_cons.
  destruct (Nat.eqb_spec a n) as [->|]; intros H; [injection H as ->; now left|right; auto].
Qed.

Lemma tm_find_in m n : In n (map fst m) -> exists p, tm_find m n = Some p.
Proof.
  induction m as [|[a b] m IH]; [intros []|]. rewrite tm_find_cons.
  destruct (Nat.eqb_spec a n) as [->|]; [eauto|]. intros [H|H]; [simpl in H; congruence|auto].
Qed.

Lemma fold_edge_map : forall es m, NoDup (map etgt es) ->
  (forall e, In e es -> ~ In (etgt e) (map fst m)) ->
  fold_left (fun om e => match om with
                 | None => None
                 | Some m => match tm_find m (etgt e) with
                             | Some _ => None
                             | None => Some ((etgt e, esrc e) :: m)
                             end end) es (Some m) = Some (edge_map es ++ m).
Proof.
  unfold edge_map.
  induction es as [|e es IH]; intros m Hnd Hm; simpl; [reflexivity|].
  simpl in Hnd. inversion Hnd as [|? ? He Hes]; subst.
  rewrite tm_find_none by (apply Hm; now left). rewrite IH.
  - rewrite <- app_assoc. reflexivity.
  - assumption.
  - intros e' He'. simpl. intros [H|H].
    + apply He. rewrite H. now apply in_map.
    + revert H. apply Hm. now right.
Qed.

Section PathProof.
  Context (nl : netlist) (pred : edge -> bool) (s : nat) (tr : list event).
  Hypothesis W : WF nl.
  Hypothesis E : dfs_fwd nl pred s = Some tr.
  Notation R := (Arc (nouts nl) etgt pred).

  Lemma tree_targets : map etgt (ev_edges tr) = tl (ev_nodes tr).
  Proof. now destruct (dfs_spec _ _ _ _ _ _ E) as (_ & _ & _ & H & _). Qed.

  Lemma nodes_shape : exists r, ev_nodes tr = s :: r.
  Proof.
    destruct (dfs_spec _ _ _ _ _ _ E) as (_ & _ & H & _).
    destruct (ev_nodes tr) as [|x r]; [discriminate|]. injection H as ->. eauto.
  Qed.

  Lemma nodes_nodup : NoDup (ev_nodes tr).
  Proof. now destruct (dfs_spec _ _ _ _ _ _ E) as (H & _). Qed.

  Lemma the_map : pf_visit tr [] = Some (edge_map (ev_edges tr)).
  Proof.
    rewrite pf_visit_spec, fold_edge_map, app_nil_r; [reflexivity| |].
    - rewrite tree_targets. destruct nodes_shape as [r Hr]. pose proof nodes_nodup as H.
      rewrite Hr in *. simpl. now inversion H.
    - intros e He [].
  Qed.

  (** Position of a node in visiting order. *)
  Fixpoint pos (n : nat) (l : list nat) : nat :=
    match l with [] => 0 | x :: r => if Nat.eqb x n then 0 else S (pos n r) end.

  Lemma pos_nth l i n d : NoDup l -> nth i l d = n -> i < length l -> pos n l = i.
  Proof.
    revert i. induction l as [|x l IH]; intros i H Hn Hi; simpl in *; [lia|].
    inversion H as [|? ? Hx Hl]; subst. destruct i as [|i].
    - now rewrite Nat.eqb_refl.
    - destruct (Nat.eqb_spec x (nth i l d)) as [Hx'|].
      + exfalso. apply Hx. rewrite Hx'. apply nth_In. lia.
      + f_equal. apply IH; auto. lia.
  Qed.

  Lemma pos_firstn l k n : In n (firstn k l) -> pos n l < k.
  Proof.
    revert l. induction k as [|k IH]; intros l; simpl; [tauto|].
    destruct l as [|x l]; simpl; [tauto|]. destruct (Nat.eqb_spec x n); [lia|].
    intros [H|H]; [congruence|]. apply IH in H. lia.
  Qed.

  (** Every non-start visited node has a parent, earlier, joined by an accepted edge. *)
  Lemma parent_props n p : tm_find (edge_map (ev_edges tr)) n = Some p ->
    R p n /\ In p (ev_nodes tr) /\ pos p (ev_nodes tr) < pos n (ev_nodes tr).
  Proof.
    intros H. apply tm_find_some in H. unfold edge_map in H. apply in_rev, in_map_iff in H.
    destruct H as (e & He & Hin). injection He as He1 He2.
    apply in_split in Hin. destruct Hin as (l1 & l2 & Hsp).
    destruct (dfs_steps _ _ _ _ _ _ E) as [vis HS].
    destruct (steps_parent _ _ _ _ _ _ HS l1 e l2 Hsp) as [Hp (q & Hq1 & Hq2)].
    destruct (mir_out _ W q e Hq1) as (Hsrc & _).
    assert (Hqp : q = p) by congruence. rewrite Hqp in Hq1, Hq2. clear Hqp Hsrc.
    split; [exists e; repeat split; [exact Hq1|exact Hp|exact He1]|]. split.
    { eapply In_nth_error in Hq2. destruct Hq2 as [i Hi]. apply nth_error_In in Hi.
      rewrite <- (firstn_skipn (S (length l1)) (ev_nodes tr)). apply in_app_iff. now left. }
    assert (Hpos : pos n (ev_nodes tr) = S (length l1)).
    { destruct nodes_shape as [r Hr]. pose proof tree_targets as T. rewrite Hr in T. simpl in T.
      pose proof nodes_nodup as ND. rewrite Hr in *.
      apply pos_nth with (d := 0); [assumption| |].
      - simpl. rewrite <- T, Hsp, map_app. simpl. rewrite app_nth2; rewrite map_length; [|lia].
        now rewrite Nat.sub_diag.
      - simpl. rewrite <- T, Hsp, map_app, app_length, map_length. simpl. lia. }
    rewrite Hpos. now apply pos_firstn.
  Qed.

  Lemma has_parent n : In n (ev_nodes tr) -> n <> s ->
    exists p, tm_find (edge_map (ev_edges tr)) n = Some p.
  Proof.
    intros Hn Hs. apply tm_find_in. rewrite edge_map_keys, <- in_rev.
    rewrite tree_targets. destruct nodes_shape as [r Hr]. rewrite Hr in *. simpl in *.
    destruct Hn; [congruence|assumption].
  Qed.

  Lemma start_no_parent : tm_find (edge_map (ev_edges tr)) s = None.
  Proof.
    apply tm_find_none. rewrite edge_map_keys, <- in_rev.
    rewrite tree_targets. destruct nodes_shape as [r Hr]. pose proof nodes_nodup as ND.
    rewrite Hr in *. simpl. now inversion ND.
  Qed.

  Lemma walk_spec : forall fuel cur acc d,
    In cur (ev_nodes tr) -> cur <> s -> pos cur (ev_nodes tr) <= fuel ->
    Walk R (cur :: acc) ->
    NoDup (cur :: acc) -> (forall x, In x acc -> pos cur (ev_nodes tr) < pos x (ev_nodes tr)) ->
    exists p, walk_parents fuel (edge_map (ev_edges tr)) s cur (cur :: acc) = PPath p /\
      Walk R p /\ NoDup p /\ hd_error p = Some s /\ last p d = last (cur :: acc) d /\ p <> [].
  Proof.
    induction fuel as [|k IH]; intros cur acc d Hin Hs Hf HW HN HP.
    - exfalso. destruct nodes_shape as [r Hr]. rewrite Hr in Hf. simpl in Hf.
      destruct (Nat.eqb_spec s cur); [congruence|lia].
    - simpl. destruct (has_parent cur Hin Hs) as [p Hp]. rewrite Hp.
      destruct (parent_props cur p Hp) as (HR & HI & HL).
      assert (HW' : Walk R (p :: cur :: acc)) by (split; assumption).
      assert (HN' : NoDup (p :: cur :: acc)).
      { constructor; [|assumption]. intros [K|K]; [subst; lia|]. apply HP in K. lia. }
      destruct (Nat.eqb_spec p s) as [->|Hps].
      + exists (s :: cur :: acc). repeat split; auto; discriminate.
      + destruct (IH p (cur :: acc) d HI Hps) as (q & Eq & H1 & H2 & H3 & H4 & H5); auto.
        * lia.
        * intros x [<-|Hx]; [assumption|]. apply HP in Hx. lia.
        * exists q. repeat split; auto.
  Qed.

  Lemma path_ok e : In e (gnodes (ng nl)) -> e <> s ->
    (Reach R s e /\ exists p, buildPath (edge_map (ev_edges tr)) s e = PPath p /\
        Walk R p /\ NoDup p /\ hd_error p = Some s /\ last p s = e /\ p <> [])
    \/ (~ Reach R s e /\ buildPath (edge_map (ev_edges tr)) s e = PPath []).
  Proof.
    intros He Hes. destruct (dfs_spec _ _ _ _ _ _ E) as (_ & Hreach & _).
    unfold buildPath.
    destruct (in_dec Nat.eq_dec e (ev_nodes tr)) as [Hin|Hout].
    - left. split; [now apply Hreach|].
      destruct (has_parent e Hin Hes) as [p Hp]. rewrite Hp.
      destruct (Nat.eqb_spec s e); [congruence|].
      destruct (walk_spec (length (edge_map (ev_edges tr))) e [] s Hin Hes) as (q & Eq & H1 & H2 & H3 & H4 & H5).
      + unfold edge_map. rewrite rev_length, map_length.
        pose proof tree_targets as T. apply (f_equal (@length nat)) in T. rewrite map_length in T.
        destruct nodes_shape as [r Hr]. rewrite Hr in *. simpl in *.
        destruct (Nat.eqb_spec s e); [congruence|]. rewrite T.
        destruct Hin as [|Hin]; [congruence|]. clear -Hin.
        induction r as [|x r IH]; simpl in *; [tauto|]. destruct (Nat.eqb_spec x e); [lia|].
        destruct Hin; [congruence|]. apply le_n_S. apply IH. assumption.
      + exact I.
      + repeat constructor. intros [].
      + intros x [].
      + exists q. repeat split; try assumption.
    - right. split; [intros H; apply Hout, Hreach, H|].
      rewrite tm_find_none; [reflexivity|]. rewrite edge_map_keys, <- in_rev.
      rewrite tree_targets. intros H. apply Hout. destruct (ev_nodes tr); [destruct H|now right].
  Qed.
End PathProof.

Lemma path_with_spec nl pred s e : WF nl -> In s (gnodes (ng nl)) -> In e (gnodes (ng nl)) -> s <> e ->
  let R := Arc (nouts nl) etgt pred in
  (Reach R s e /\ exists p, path_with nl pred s e = PPath p /\
        Walk R p /\ NoDup p /\ hd_error p = Some s /\ last p s = e /\ p <> [])
  \/ (~ Reach R s e /\ path_with nl pred s e = PPath []).
Proof.
  intros W Hs He Hse R. destruct (dfs_fwd_total nl pred s W Hs) as [tr E].
  unfold path_with. rewrite E, (the_map nl pred s tr E).
  apply (path_ok nl pred s tr W E e He). congruence.
Qed.

Lemma path_with_self nl pred s : WF nl -> In s (gnodes (ng nl)) -> path_with nl pred s s = PPath [].
Proof.
  intros W Hs. destruct (dfs_fwd_total nl pred s W Hs) as [tr E].
  unfold path_with. rewrite E, (the_map nl pred s tr E). unfold buildPath.
  now rewrite (start_no_parent nl pred s tr E).
Qed.

Lemma walk_iff (R Q : nat -> nat -> Prop) l : (forall a b, R a b -> Q a b) -> Walk R l -> Walk Q l.
Proof.
  intros H. induction l as [|x l IH]; simpl; [auto|]. destruct l; [auto|]. intros [H1 H2]. auto.
Qed.

(** C11 *)
Lemma c11 nl s e : WF nl -> In s (gnodes (ng nl)) -> In e (gnodes (ng nl)) ->
  exists p, pf_find nl s e = PPath p /\
    (p <> [] -> hd_error p = Some s /\ last p s = e /\ NoDup p /\ Walk (Conn nl) p).
Proof.
  intros W Hs He. destruct (Nat.eq_dec s e) as [->|Hne].
  - exists []. split; [now apply path_with_self|congruence].
  - destruct (path_with_spec nl (pred_enabled nl) s e W Hs He Hne)
      as [(_ & p & Ep & H1 & H2 & H3 & H4 & _)|(_ & Ep)].
    + exists p. split; [exact Ep|]. intros _. repeat split; auto.
      eapply walk_iff; [|exact H1]. intros a b. apply arc_enabled.
    + exists []. split; [exact Ep|congruence].
Qed.

(** C12 for distinct end points *)
Lemma c12 nl s e : WF nl -> In s (gnodes (ng nl)) -> In e (gnodes (ng nl)) -> s <> e ->
  exists p, pf_find nl s e = PPath p /\ (p <> [] <-> Reach1 (Conn nl) s e).
Proof.
  intros W Hs He Hne.
  assert (HR : Reach (Conn nl) s e <-> Reach1 (Conn nl) s e).
  { split; [|apply reach1_reach]. intros H. destruct (reach_cases _ _ _ H); [congruence|assumption]. }
  destruct (path_with_spec nl (pred_enabled nl) s e W Hs He Hne)
      as [(Hr & p & Ep & _ & _ & _ & _ & Hp)|(Hr & Ep)];
    rewrite (reach_iff _ _ (arc_enabled nl)), HR in Hr.
  - exists p. split; [exact Ep|tauto].
  - exists []. split; [exact Ep|]. split; [congruence|tauto].
Qed.

Lemma walk_comb_state nl p : Walk (Comb nl) p -> forall x, In x (tl p) -> nkind (ninf nl x) <> KState.
Proof.
  induction p as [|a p IH]; simpl; [tauto|]. destruct p as [|b p]; [simpl; tauto|].
  intros [[_ Hb] H] x [<-|Hx]; [assumption|]. apply IH; [exact H|exact Hx].
Qed.

(** C13 *)
Lemma c13 nl s e : WF nl -> In s (gnodes (ng nl)) -> In e (gnodes (ng nl)) ->
  exists p, pf_findComb nl s e = PPath p /\
    (p <> [] -> hd_error p = Some s /\ last p s = e /\ NoDup p /\ Walk (Conn nl) p /\
                forall x, In x (tl p) -> nkind (ninf nl x) <> KState) /\
    (p <> [] <-> s <> e /\ Reach (Comb nl) s e).
Proof.
  intros W Hs He. destruct (Nat.eq_dec s e) as [->|Hne].
  - exists []. split; [now apply path_with_self|]. split; [congruence|]. split; [congruence|tauto].
  - destruct (path_with_spec nl (pred_comb nl) s e W Hs He Hne)
      as [(Hr & p & Ep & H1 & H2 & H3 & H4 & Hp)|(Hr & Ep)];
      rewrite (reach_iff _ _ (arc_comb nl)) in Hr.
    + exists p. split; [exact Ep|].
      assert (HW : Walk (Comb nl) p) by (eapply walk_iff; [|exact H1]; intros a b; apply arc_comb).
      split; [|tauto]. intros _. repeat split; auto.
      * eapply walk_iff; [|exact HW]. intros a b [Hc _]. exact Hc.
      * now apply walk_comb_state.
    + exists []. split; [exact Ep|]. split; [congruence|]. split; [congruence|tauto].
Qed.

(** C08 *)
Lemma c08_dfs succs nxt pred V s :
  NoDup V -> In s V ->
  (forall v e, In v V -> In e (succs v) -> pred e = true -> In (nxt e) V) ->
  exists tr, dfs succs nxt pred (dfs_fuel succs V) s = Some tr /\
    NoDup (ev_nodes tr) /\
    hd_error (ev_nodes tr) = Some s /\
    (forall v, In v (ev_nodes tr) <-> Reach (Arc succs nxt pred) s v) /\
    map nxt (ev_edges tr) = tl (ev_nodes tr) /\
    ev_pops tr = length (ev_nodes tr) /\
    (forall l1 e l2, ev_edges tr = l1 ++ e :: l2 -> pred e = true /\
       exists p, In e (succs p) /\ In p (firstn (S (length l1)) (ev_nodes tr))).
Proof.
  intros HV Hs HC. destruct (dfs_terminates succs nxt pred s V HV Hs HC) as [tr E].
  exists tr. split; [exact E|]. destruct (dfs_spec _ _ _ _ _ _ E) as (A & B & C & D & F & _).
  split; [exact A|]. split; [exact C|]. split; [exact B|]. split; [exact D|]. split; [exact F|].
  destruct (dfs_steps _ _ _ _ _ _ E) as [vis HS]. exact (steps_parent _ _ _ _ _ _ HS).
Qed.

Lemma c08_total nl pred s : WF nl -> In s (gnodes (ng nl)) ->
  (exists tr, dfs_fwd nl pred s = Some tr /\
     forall v, In v (ev_nodes tr) <-> Reach (Arc (nouts nl) etgt pred) s v) /\
  (exists tr, dfs_bwd nl pred s = Some tr /\
     forall v, In v (ev_nodes tr) <-> Reach (Arc (nins nl) esrc pred) s v).
Proof.
  intros W Hs. split.
  - destruct (dfs_fwd_total nl pred s W Hs) as [tr E]. exists tr. split; [exact E|].
    now destruct (dfs_spec _ _ _ _ _ _ E) as (_ & B & _).
  - destruct (dfs_bwd_total nl pred s W Hs) as [tr E]. exists tr. split; [exact E|].
    now destruct (dfs_spec _ _ _ _ _ _ E) as (_ & B & _).
Qed.

(** Deciding [Conn], for concrete examples. *)
Lemma conn_b nl a b :
  existsb (fun e => Nat.eqb (etgt e) b && negb (adis (eatt nl (eid e)))) (outs (nst (ng nl) a)) = true ->
  Conn nl a b.
Proof.
  intros H. apply existsb_exists in H. destruct H as (e & H1 & H2).
  apply andb_true_iff in H2. destruct H2 as [H2 H3]. apply Nat.eqb_eq in H2.
  apply negb_true_iff in H3. exists e. auto.
Qed.

(** Concrete netlists built by [mk_netlist] are reachable. *)
Lemma mk_graph_reachable n es : reachable outEdgeIndexThreshold (mk_graph n es).
Proof.
  unfold mk_graph. destruct (run outEdgeIndexThreshold empty_graph _) as [[g rs]|] eqn:E.
  - eexists; eauto.
  - exists [], []. reflexivity.
Qed.
Lemma mk_netlist_WF ns es : WF (mk_netlist ns es).
Proof. apply c01 with (thr := outEdgeIndexThreshold), mk_graph_reachable. Qed.
