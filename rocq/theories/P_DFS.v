(** Proofs about the depth-first traversal. *)
From Verif Require Import Base M_Graph S_Reach M_DFS.

Lemma mem_In n l : mem n l = true <-> In n l.
Proof.
  unfold mem. rewrite existsb_exists. split.
  - intros [x [Hx He]]. apply Nat.eqb_eq in He. now subst.
  - intros H. exists n. split; [assumption|apply Nat.eqb_refl].
Qed.
Lemma mem_false n l : mem n l = false <-> ~ In n l.
Proof. rewrite <- mem_In. now destruct (mem n l). Qed.

Lemma ev_nodes_app t1 t2 : ev_nodes (t1 ++ t2) = ev_nodes t1 ++ ev_nodes t2.
Proof. induction t1 as [|[] t IH]; simpl; congruence. Qed.
Lemma ev_edges_app t1 t2 : ev_edges (t1 ++ t2) = ev_edges t1 ++ ev_edges t2.
Proof. induction t1 as [|[] t IH]; simpl; congruence. Qed.
Lemma ev_pops_app t1 t2 : ev_pops (t1 ++ t2) = ev_pops t1 + ev_pops t2.
Proof. induction t1 as [|[] t IH]; simpl; congruence. Qed.

Section DFS.
  Context (succs : nat -> list edge) (nxt : edge -> nat) (pred : edge -> bool).
  Notation step := (dfs_step succs nxt pred).
  Notation drun := (dfs_run succs nxt pred).

  Definition Arc (a b : nat) : Prop := exists e, In e (succs a) /\ pred e = true /\ nxt e = b.

  (** Targets of the accepted edges examined so far. *)
  Fixpoint ev_targets (tr : list event) : list nat :=
    match tr with
    | [] => []
    | EEdge e :: r => nxt e :: ev_targets r
    | EVisited n :: r => n :: ev_targets r
    | _ :: r => ev_targets r
    end.
  Lemma ev_targets_app t1 t2 : ev_targets (t1 ++ t2) = ev_targets t1 ++ ev_targets t2.
  Proof. induction t1 as [|[] t IH]; simpl; congruence. Qed.

  (** Every state reached, together with the trace that led to it. *)
  Inductive Steps (s : nat) : dstate -> list event -> Prop :=
  | steps_init : Steps s (dfs_init succs s) [ENode s]
  | steps_step st tr st' evs : Steps s st tr -> step st = Some (st', evs) ->
      Steps s st' (tr ++ evs).

  Lemma run_steps s : forall fuel st tr0 tr, Steps s st tr0 -> drun fuel st = Some tr ->
    exists vis, Steps s (vis, []) (tr0 ++ tr).
  Proof.
    induction fuel as [|k IH]; intros [vis stk] tr0 tr HS; cbn [dfs_run].
    - destruct (step (vis, stk)) as [[st' evs]|] eqn:E; [discriminate|]. intros H. injection H as <-.
      exists vis. rewrite app_nil_r. destruct stk as [|[n [|e r]] rest]; simpl in E; [assumption|discriminate|].
      destruct (negb (pred e)); [discriminate|]. destruct (mem (nxt e) vis); discriminate.
    - destruct (step (vis, stk)) as [[st' evs]|] eqn:E.
      + destruct (drun k st') as [tr'|] eqn:R; [|discriminate]. intros H. injection H as <-.
        rewrite app_assoc. eapply IH; [|exact R]. eapply steps_step; eauto.
      + intros H. injection H as <-. exists vis. rewrite app_nil_r.
        destruct stk as [|[n [|e r]] rest]; simpl in E; [assumption|discriminate|].
        destruct (negb (pred e)); [discriminate|]. destruct (mem (nxt e) vis); discriminate.
  Qed.

  Lemma dfs_steps fuel s tr : dfs succs nxt pred fuel s = Some tr ->
    exists vis, Steps s (vis, []) tr.
  Proof.
    unfold dfs. destruct (drun fuel (dfs_init succs s)) as [tr'|] eqn:E; [|discriminate].
    intros H. injection H as <-. apply (run_steps s fuel (dfs_init succs s) [ENode s] tr'); [constructor|assumption].
  Qed.

  (** ** Invariant *)
  Record DInv (s : nat) (st : dstate) (tr : list event) : Prop := {
    di_nodes : ev_nodes tr = rev (fst st);
    di_nodup : NoDup (fst st);
    di_reach : forall v, In v (fst st) -> Reach Arc s v;
    di_stk_nodup : NoDup (map fst (snd st));
    di_stk_vis : forall n, In n (map fst (snd st)) -> In n (fst st);
    di_stk_sub : forall n r e, In (n, r) (snd st) -> In e r -> In e (succs n);
    di_walk : Walk Arc (rev (map fst (snd st)));
    di_bottom : snd st <> [] -> last (map fst (snd st)) s = s;
    di_start : In s (fst st);
    di_first : hd_error (ev_nodes tr) = Some s;
    di_closed : forall v e, In v (fst st) -> In e (succs v) -> pred e = true ->
        In (nxt e) (fst st) \/ (exists r, In (v, r) (snd st) /\ In e r);
    di_exam : Permutation (ev_targets tr ++ map nxt (filter pred (flat_map snd (snd st))))
                          (map nxt (filter pred (flat_map succs (fst st))));
    di_tree : map nxt (ev_edges tr) = tl (ev_nodes tr);
    di_pops : ev_pops tr + length (snd st) = length (fst st) }.

  Lemma walk_snoc R l x y : Walk R (l ++ [x]) -> R x y -> Walk R ((l ++ [x]) ++ [y]).
  Proof. intros H Hxy. rewrite <- app_assoc. simpl. apply walk_app; simpl; auto. Qed.

  Lemma last_map_cons {A} (f : A -> nat) x y l d : last (map f (x :: y :: l)) d = last (map f (y :: l)) d.
  Proof. reflexivity. Qed.

  Lemma perm_aux (A B CD : list nat) x : Permutation (A ++ x :: B ++ CD) (B ++ A ++ x :: CD).
  Proof.
    change (x :: B ++ CD) with ([x] ++ B ++ CD). change (x :: CD) with ([x] ++ CD).
    rewrite (Permutation_app_swap_app [x] B CD). apply Permutation_app_swap_app.
  Qed.

  Lemma dinv_init s : DInv s (dfs_init succs s) [ENode s].
  Proof.
    constructor; simpl; auto.
    - repeat constructor; simpl; tauto.
    - intros v [<-|[]]. constructor.
    - repeat constructor; simpl; tauto.
    - intros n r e [H|[]]. injection H as <- <-. auto.
    - intros v e [<-|[]] He Hp. right. exists (succs s). auto.
  Qed.

  Lemma stk_fun (stk : list (nat * list edge)) n r1 r2 :
    NoDup (map fst stk) -> In (n, r1) stk -> In (n, r2) stk -> r1 = r2.
  Proof.
    induction stk as [|[m r] stk IH]; simpl; [tauto|]. intros H. inversion H as [|? ? Hm Hs]; subst.
    intros [E1|H1] [E2|H2].
    - congruence.
    - injection E1 as -> ->. exfalso. apply Hm. now apply (in_map fst _ (n, r2)).
    - injection E2 as -> ->. exfalso. apply Hm. now apply (in_map fst _ (n, r1)).
    - auto.
  Qed.

  Ltac dinv I := first [exact (di_nodes _ _ _ I) | exact (di_nodup _ _ _ I) | exact (di_reach _ _ _ I)
    | exact (di_start _ _ _ I) | exact (di_first _ _ _ I) | exact (di_tree _ _ _ I)].

  Lemma dinv_step s st tr st' evs :
    DInv s st tr -> step st = Some (st', evs) -> DInv s st' (tr ++ evs).
  Proof.
    intros I. destruct st as [vis [|[n [|e r]] rest]]; simpl; [discriminate| |].
    - (* pop *)
      intros H. injection H as <- <-. constructor; simpl.
      + rewrite ev_nodes_app, app_nil_r. dinv I.
      + dinv I.
      + dinv I.
      + pose proof (di_stk_nodup _ _ _ I) as H. simpl in H. now inversion H.
      + intros m Hm. apply (di_stk_vis _ _ _ I). simpl. now right.
      + intros m r e Hm. apply (di_stk_sub _ _ _ I). simpl. now right.
      + pose proof (di_walk _ _ _ I) as H. simpl in H. apply walk_app_inv in H. tauto.
      + intros Hr. pose proof (di_bottom _ _ _ I) as H. simpl in H.
        destruct rest as [|p rest]; [congruence|]. apply H. discriminate.
      + dinv I.
      + rewrite ev_nodes_app, app_nil_r. dinv I.
      + intros v e Hv He Hp. destruct (di_closed _ _ _ I v e Hv He Hp) as [H|(r & Hr & Her)]; [now left|].
        simpl in Hr. destruct Hr as [Hr|Hr]; [injection Hr as <- <-; destruct Her|]. right. eauto.
      + rewrite ev_targets_app. simpl. rewrite app_nil_r. apply (di_exam _ _ _ I).
      + rewrite ev_edges_app, ev_nodes_app, !app_nil_r. dinv I.
      + rewrite ev_pops_app. simpl. pose proof (di_pops _ _ _ I) as H. simpl in H. lia.
    - destruct (pred e) eqn:P; simpl.
      + destruct (mem (nxt e) vis) eqn:M.
        * (* visited *)
          apply mem_In in M. intros H. injection H as <- <-. constructor; simpl.
          -- rewrite ev_nodes_app, app_nil_r. dinv I.
          -- dinv I.
          -- dinv I.
          -- apply (di_stk_nodup _ _ _ I).
          -- apply (di_stk_vis _ _ _ I).
          -- intros m r' e' [Hm|Hm] He'.
             ++ injection Hm as <- <-. apply (di_stk_sub _ _ _ I n (e :: r)); simpl; auto.
             ++ apply (di_stk_sub _ _ _ I m r'); simpl; auto.
          -- apply (di_walk _ _ _ I).
          -- intros _. apply (di_bottom _ _ _ I). discriminate.
          -- dinv I.
          -- rewrite ev_nodes_app, app_nil_r. dinv I.
          -- intros v e' Hv He' Hp. destruct (di_closed _ _ _ I v e' Hv He' Hp) as [H|(r' & Hr & Her)]; [now left|].
             simpl in Hr. destruct Hr as [Hr|Hr].
             ++ injection Hr as <- <-. destruct Her as [->|Her]; [now left|]. right. exists r. auto.
             ++ right. eauto.
          -- rewrite ev_targets_app. simpl. pose proof (di_exam _ _ _ I) as H. simpl in H.
             rewrite P in H. simpl in H. rewrite <- H. rewrite <- app_assoc. reflexivity.
          -- rewrite ev_edges_app, ev_nodes_app, !app_nil_r. dinv I.
          -- rewrite ev_pops_app. simpl. pose proof (di_pops _ _ _ I) as H. simpl in H. lia.
        * (* new node *)
          apply mem_false in M. intros H. injection H as <- <-.
          assert (Hn : In n vis) by (apply (di_stk_vis _ _ _ I); simpl; auto).
          assert (Harc : Arc n (nxt e)).
          { exists e. repeat split; auto. apply (di_stk_sub _ _ _ I n (e :: r)); simpl; auto. }
          constructor; simpl.
          -- rewrite ev_nodes_app, (di_nodes _ _ _ I). reflexivity.
          -- constructor; [assumption|dinv I].
          -- intros v [<-|Hv]; [|now apply (di_reach _ _ _ I)].
             eapply reach_step; [apply (di_reach _ _ _ I n Hn)|assumption].
          -- constructor; [|apply (di_stk_nodup _ _ _ I)].
             intros H. apply M. apply (di_stk_vis _ _ _ I). exact H.
          -- intros m [<-|Hm]; [now left|]. right. apply (di_stk_vis _ _ _ I). exact Hm.
          -- intros m r' e' [Hm|[Hm|Hm]] He'.
             ++ injection Hm as <- <-. assumption.
             ++ injection Hm as <- <-. apply (di_stk_sub _ _ _ I n (e :: r)); simpl; auto.
             ++ apply (di_stk_sub _ _ _ I m r'); simpl; auto.
          -- apply walk_snoc; [apply (di_walk _ _ _ I)|assumption].
          -- intros _. pose proof (di_bottom _ _ _ I) as H. simpl in H. apply H. discriminate.
          -- right. dinv I.
          -- rewrite ev_nodes_app. pose proof (di_first _ _ _ I) as H.
             destruct (ev_nodes tr); [discriminate|assumption].
          -- intros v e' [<-|Hv] He' Hp; [right; exists (succs (nxt e)); auto|].
             destruct (di_closed _ _ _ I v e' Hv He' Hp) as [H|(r' & Hr & Her)]; [left; now right|].
             simpl in Hr. destruct Hr as [Hr|Hr].
             ++ injection Hr as <- <-. destruct Her as [->|Her]; [left; now left|]. right. exists r. auto.
             ++ right. eauto.
          -- rewrite ev_targets_app. simpl. pose proof (di_exam _ _ _ I) as H. simpl in H.
             rewrite P in H. simpl in H.
             rewrite !filter_app', !map_app. rewrite <- H, !filter_app', !map_app.
             rewrite <- (app_assoc (ev_targets tr)). simpl.
             apply perm_aux.
          -- rewrite ev_edges_app, ev_nodes_app, map_app. simpl. rewrite (di_tree _ _ _ I).
             pose proof (di_first _ _ _ I) as H. destruct (ev_nodes tr); [discriminate|reflexivity].
          -- rewrite ev_pops_app. simpl. pose proof (di_pops _ _ _ I) as H. simpl in H. lia.
      + (* skipped *)
        intros H. injection H as <- <-. rewrite app_nil_r. constructor; simpl.
        * dinv I.
        * dinv I.
        * dinv I.
        * apply (di_stk_nodup _ _ _ I).
        * apply (di_stk_vis _ _ _ I).
        * intros m r' e' [Hm|Hm] He'.
          -- injection Hm as <- <-. apply (di_stk_sub _ _ _ I n (e :: r)); simpl; auto.
          -- apply (di_stk_sub _ _ _ I m r'); simpl; auto.
        * apply (di_walk _ _ _ I).
        * intros _. apply (di_bottom _ _ _ I). discriminate.
        * dinv I.
        * dinv I.
        * intros v e' Hv He' Hp. destruct (di_closed _ _ _ I v e' Hv He' Hp) as [H|(r' & Hr & Her)]; [now left|].
          simpl in Hr. destruct Hr as [Hr|Hr].
          -- injection Hr as <- <-. destruct Her as [->|Her]; [congruence|]. right. exists r. auto.
          -- right. eauto.
        * pose proof (di_exam _ _ _ I) as H. simpl in H. rewrite P in H. exact H.
        * dinv I.
        * pose proof (di_pops _ _ _ I) as H. simpl in H. lia.
  Qed.

  Lemma steps_inv s st tr : Steps s st tr -> DInv s st tr.
  Proof. induction 1; [apply dinv_init|eapply dinv_step; eauto]. Qed.

  (** ** Termination *)
  Definition cost (n : nat) : nat := S (length (succs n)).
  Definition stk_cost (stk : list (nat * list edge)) : nat :=
    list_sum (map (fun p => S (length (snd p))) stk).
  Definition unvis_cost (V vis : list nat) : nat :=
    list_sum (map cost (filter (fun n => negb (mem n vis)) V)).

  Definition Closed (V : list nat) : Prop :=
    forall v e, In v V -> In e (succs v) -> pred e = true -> In (nxt e) V.

  Lemma mem_cons m n vis : mem m (n :: vis) = Nat.eqb m n || mem m vis.
  Proof. reflexivity. Qed.

  Lemma unvis_cons x V vis :
    unvis_cost (x :: V) vis = (if mem x vis then 0 else cost x) + unvis_cost V vis.
  Proof. unfold unvis_cost. cbn [filter]. now destruct (mem x vis). Qed.

  Lemma unvis_notin V vis n : ~ In n V -> unvis_cost V (n :: vis) = unvis_cost V vis.
  Proof.
    induction V as [|x V IH]; intros H; [reflexivity|].
    rewrite !unvis_cons, mem_cons, IH by (intros K; apply H; now right).
    destruct (Nat.eqb_spec x n) as [->|]; [exfalso; apply H; now left|reflexivity].
  Qed.

  Lemma unvis_add V vis n : NoDup V -> In n V -> ~ In n vis ->
    unvis_cost V (n :: vis) + cost n = unvis_cost V vis.
  Proof.
    intros HV. induction HV as [|x V Hx HV IH]; [intros []|].
    intros Hin Hn. rewrite !unvis_cons, mem_cons.
    destruct (Nat.eqb_spec x n) as [->|Hxn]; cbn [orb].
    - rewrite (proj2 (mem_false n vis) Hn), unvis_notin by assumption. lia.
    - destruct Hin as [->|Hin]; [congruence|]. specialize (IH Hin Hn). lia.
  Qed.

  Lemma run_terminates s V : NoDup V -> In s V -> Closed V ->
    forall fuel st tr, Steps s st tr -> (forall v, In v (fst st) -> In v V) ->
    stk_cost (snd st) + unvis_cost V (fst st) <= fuel ->
    exists tr', drun fuel st = Some tr'.
  Proof.
    intros HV Hs HC. induction fuel as [|k IH]; intros st tr HS Hsub Hf.
    - destruct st as [vis [|[n r] rest]]; simpl in *; [eauto|]. unfold stk_cost in Hf. simpl in Hf. lia.
    - cbn [dfs_run]. destruct (step st) as [[st' evs]|] eqn:E; [|eauto].
      assert (HS' : Steps s st' (tr ++ evs)) by (eapply steps_step; eauto).
      assert (HI : DInv s st tr) by now apply steps_inv.
      assert (H : (forall v, In v (fst st') -> In v V) /\ stk_cost (snd st') + unvis_cost V (fst st') <= k).
      { destruct st as [vis [|[n [|e r]] rest]]; simpl in *; [discriminate| |].
        - injection E as <- <-. simpl. split; [assumption|]. unfold stk_cost in *. simpl in *. lia.
        - destruct (pred e) eqn:P; simpl in E.
          + destruct (mem (nxt e) vis) eqn:M; injection E as <- <-; simpl.
            * split; [assumption|]. unfold stk_cost in *. simpl in *. lia.
            * apply mem_false in M.
              assert (Hin : In (nxt e) V).
              { apply (HC n e); [apply Hsub, (di_stk_vis _ _ _ HI); simpl; auto| |assumption].
                apply (di_stk_sub _ _ _ HI n (e :: r)); simpl; auto. }
              split; [intros v [<-|Hv]; auto|].
              pose proof (unvis_add V vis (nxt e) HV Hin M) as U.
              unfold stk_cost in *. simpl in *. unfold cost in U. lia.
          + injection E as <- <-. simpl. split; [assumption|]. unfold stk_cost in *. simpl in *. lia. }
      destruct H as [H1 H2]. destruct (IH st' _ HS' H1 H2) as [tr' E']. rewrite E'. simpl. eauto.
  Qed.

  Lemma dfs_terminates s V : NoDup V -> In s V -> Closed V ->
    exists tr, dfs succs nxt pred (dfs_fuel succs V) s = Some tr.
  Proof.
    intros HV Hs HC.
    destruct (run_terminates s V HV Hs HC (dfs_fuel succs V) (dfs_init succs s) [ENode s]) as [tr E].
    - constructor.
    - simpl. intros v [<-|[]]. assumption.
    - unfold dfs_init. simpl. unfold stk_cost. simpl.
      assert (N0 : unvis_cost V [] = dfs_fuel succs V).
      { unfold unvis_cost, dfs_fuel. rewrite filter_true; [reflexivity|]. reflexivity. }
      pose proof (unvis_add V [] s HV Hs (fun f => f)) as U. unfold cost in U. lia.
    - unfold dfs. rewrite E. simpl. eauto.
  Qed.

  (** ** Summary of a finished traversal *)
  Lemma dfs_spec fuel s tr : dfs succs nxt pred fuel s = Some tr ->
    NoDup (ev_nodes tr) /\
    (forall v, In v (ev_nodes tr) <-> Reach Arc s v) /\
    hd_error (ev_nodes tr) = Some s /\
    map nxt (ev_edges tr) = tl (ev_nodes tr) /\
    ev_pops tr = length (ev_nodes tr) /\
    Permutation (ev_targets tr) (map nxt (filter pred (flat_map succs (ev_nodes tr)))).
  Proof.
    intros H. destruct (dfs_steps _ _ _ H) as [vis HS]. pose proof (steps_inv _ _ _ HS) as I.
    rewrite (di_nodes _ _ _ I). simpl.
    split; [apply NoDup_rev, (di_nodup _ _ _ I)|]. split.
    { intros v. rewrite <- in_rev. split; [apply (di_reach _ _ _ I)|].
      intros Hr. induction Hr as [|x y Hr IH (e & He & Hp & Hn)]; [apply (di_start _ _ _ I)|].
      destruct (di_closed _ _ _ I x e IH He Hp) as [K|(r & [] & _)]. now subst y. }
    split; [rewrite <- (di_first _ _ _ I), (di_nodes _ _ _ I); reflexivity|].
    split; [rewrite (di_tree _ _ _ I), (di_nodes _ _ _ I); reflexivity|].
    split.
    { pose proof (di_pops _ _ _ I) as K. simpl in K. rewrite rev_length. lia. }
    pose proof (di_exam _ _ _ I) as K. simpl in K. rewrite app_nil_r in K. rewrite K.
    apply Permutation_map.
    assert (PF : forall l1 l2, Permutation l1 l2 -> Permutation (filter pred l1) (filter pred l2)).
    { clear. induction 1 as [|x l1 l2 H IH|x y l|l1 l2 l3 H1 IH1 H2 IH2]; simpl.
      - constructor.
      - destruct (pred x); [now constructor|assumption].
      - destruct (pred x), (pred y); try reflexivity. constructor.
      - etransitivity; eauto. }
    apply PF. apply Permutation_flat_map. apply Permutation_rev.
  Qed.

  (** Parents precede children in visiting order. *)
  Lemma steps_parent s st tr : Steps s st tr ->
    forall l1 e l2, ev_edges tr = l1 ++ e :: l2 ->
      pred e = true /\ (exists p, In e (succs p) /\ In p (firstn (S (length l1)) (ev_nodes tr))).
  Proof.
    induction 1 as [|st tr st' evs HS IH Hst]; intros l1 e l2 H.
    - simpl in H. destruct l1; discriminate.
    - pose proof (steps_inv _ _ _ HS) as I.
      assert (Hlen : length (ev_nodes tr) = S (length (ev_edges tr))).
      { pose proof (di_tree _ _ _ I) as K. apply (f_equal (@length nat)) in K. rewrite map_length in K.
        pose proof (di_first _ _ _ I) as F. destruct (ev_nodes tr); [discriminate|]. simpl in *. lia. }
      rewrite ev_edges_app in H.
      destruct st as [vis [|[n [|e' r]] rest]]; simpl in Hst; [discriminate| |].
      + injection Hst as <- <-. simpl in H. rewrite app_nil_r in H.
        rewrite ev_nodes_app, app_nil_r. eauto.
      + destruct (pred e') eqn:P; simpl in Hst.
        * destruct (mem (nxt e') vis) eqn:M; injection Hst as <- <-; simpl in H.
          -- rewrite app_nil_r in H. rewrite ev_nodes_app, app_nil_r. eauto.
          -- rewrite ev_nodes_app.
             destruct (Nat.lt_ge_cases (length l1) (length (ev_edges tr))) as [Hlt|Hge].
             ++ (* older edge *)
                assert (exists l2', ev_edges tr = l1 ++ e :: l2').
                { clear -H Hlt. revert l1 H Hlt. induction (ev_edges tr) as [|x l IH]; intros l1 H Hlt; simpl in *; [lia|].
                  destruct l1 as [|y l1]; simpl in *.
                  - injection H as <- _. eauto.
                  - injection H as <- H. destruct (IH l1 H) as [l2' ->]; [lia|]. eauto. }
                destruct H0 as [l2' E']. destruct (IH _ _ _ E') as [Hp (p & Hp1 & Hp2)].
                split; [assumption|]. exists p. split; [assumption|].
                rewrite firstn_app. apply in_app_iff. now left.
             ++ assert (l1 = ev_edges tr /\ e = e').
                { clear -H Hge. revert l1 H Hge. induction (ev_edges tr) as [|x l IH]; intros l1 H Hge; simpl in *.
                  - destruct l1 as [|y l1]; [injection H as <- _; auto|]. destruct l1; discriminate.
                  - destruct l1 as [|y l1]; simpl in *; [lia|]. injection H as <- H.
                    destruct (IH l1 H) as [-> ->]; [lia|]. auto. }
                destruct H0 as [-> ->]. split; [assumption|]. exists n. split.
                { apply (di_stk_sub _ _ _ I n (e' :: r)); simpl; auto. }
                rewrite <- Hlen, firstn_app, firstn_all. apply in_app_iff. left.
                rewrite (di_nodes _ _ _ I). rewrite <- in_rev. apply (di_stk_vis _ _ _ I). simpl. auto.
        * injection Hst as <- <-. rewrite app_nil_r in *. simpl in H. eauto.
  Qed.
End DFS.
