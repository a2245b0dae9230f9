(** Proofs about combinational loop detection. *)
From Coq Require Import Sorting.Sorted.
From Verif Require Import Base M_Graph S_Graph P_Graph S_Reach M_Range M_Netlist S_Netlist
  M_DFS P_DFS M_Path P_Path M_Cycle S_Cycle.

Lemma NoDup_app_r {A} (l1 l2 : list A) : NoDup (l1 ++ l2) -> NoDup l2.
Proof. induction l1 as [|x l1 IH]; simpl; [auto|]. intros H. inversion H; auto. Qed.

(** ** suffix, minimum, rotation *)
Lemma suffix_from_spec n l c : suffix_from n l = Some c ->
  exists p t, l = p ++ c /\ c = n :: t /\ ~ In n p.
Proof.
  revert c. induction l as [|x l IH]; intros c; simpl; [discriminate|].
  destruct (Nat.eqb_spec x n) as [->|Hx]; intros H.
  - injection H as <-. exists [], l. simpl. auto.
  - destruct (IH _ H) as (p & t & -> & -> & Hp). exists (x :: p), t. simpl. repeat split; auto. intuition.
Qed.

Lemma suffix_from_in n l : In n l -> exists c, suffix_from n l = Some c.
Proof.
  induction l as [|x l IH]; simpl; [tauto|]. destruct (Nat.eqb_spec x n); [eauto|].
  intros [|H]; [congruence|auto].
Qed.

Lemma min_elem_spec id : forall l cur,
  In (min_elem id cur l) (cur :: l) /\ forall x, In x (cur :: l) -> id (min_elem id cur l) <= id x.
Proof.
  induction l as [|y l IH]; intros cur; simpl.
  - split; [now left|]. intros x [<-|[]]. lia.
  - destruct (Nat.ltb_spec (id y) (id cur)) as [H|H].
    + destruct (IH y) as [H1 H2]. split; [right; exact H1|].
      intros x [<-|Hx]; [|now apply H2]. etransitivity; [apply H2; now left|lia].
    + destruct (IH cur) as [[H1|H1] H2]; (split; [auto|]);
        (intros x [<-|[<-|Hx]]; [apply H2; now left| |apply H2; now right]);
        (etransitivity; [apply H2; now left|lia]).
Qed.

Lemma rotate_to_spec m : forall l pre, In m l ->
  exists a b, l = a ++ m :: b /\ rotate_to m pre l = m :: b ++ rev pre ++ a.
Proof.
  induction l as [|x l IH]; intros pre H; simpl in *; [tauto|].
  destruct (Nat.eqb_spec x m) as [->|Hx].
  - exists [], l. now rewrite app_nil_r.
  - destruct H as [|H]; [congruence|]. destruct (IH (x :: pre) H) as (a & b & -> & Hr).
    exists (x :: a), b. split; [reflexivity|]. rewrite Hr. simpl. now rewrite <- !app_assoc.
Qed.

Lemma canon_spec id c : c <> [] -> exists m a b, c = a ++ m :: b /\ canon id c = m :: b ++ a /\
  forall x, In x c -> id m <= id x.
Proof.
  destruct c as [|h t]; [congruence|]. intros _. unfold canon.
  destruct (min_elem_spec id t h) as [H1 H2].
  destruct (rotate_to_spec (min_elem id h t) (h :: t) [] H1) as (a & b & E1 & E2).
  exists (min_elem id h t), a, b. rewrite E2. simpl. auto.
Qed.

Lemma canon_perm id c : Permutation (canon id c) c.
Proof.
  destruct c as [|h t]; [constructor|].
  destruct (canon_spec id (h :: t)) as (m & a & b & E1 & E2 & _); [discriminate|].
  rewrite E2, E1. change (m :: b ++ a) with ((m :: b) ++ a). apply Permutation_app_comm.
Qed.

Lemma last_app_cons {A} (l1 : list A) x l2 d : last (l1 ++ x :: l2) d = last (x :: l2) d.
Proof.
  induction l1 as [|y l1 IH]; [reflexivity|]. simpl app.
  destruct (l1 ++ x :: l2) eqn:E; [destruct l1; discriminate|]. exact IH.
Qed.

Lemma rotate_cycle R a m b : SimpleCycle R (a ++ m :: b) -> SimpleCycle R (m :: b ++ a).
Proof.
  intros (h & t & E & HN & HW & HL). exists m, (b ++ a). split; [reflexivity|].
  split; [apply (Permutation_NoDup (l := a ++ m :: b)); [|assumption];
          change (m :: b ++ a) with ((m :: b) ++ a); apply Permutation_app_comm|].
  destruct a as [|h' a].
  - simpl in *. injection E as <- <-. rewrite app_nil_r. split; [assumption|]. exact HL.
  - simpl in E. injection E as <- E. destruct (walk_app_inv _ _ _ HW) as [HWa HWm].
    rewrite (last_app_cons (h' :: a) m b) in HL. split.
    + (* walk m .. b then h' .. a *)
      destruct (exists_last (l := m :: b)) as (q & z & Eq); [discriminate|].
      assert (Hz : last (m :: b) h' = z) by (rewrite Eq; apply last_last).
      rewrite Hz in HL.
      pose proof (walk_app R q z (h' :: a)) as K.
      change (m :: b ++ h' :: a) with ((m :: b) ++ h' :: a). rewrite Eq, <- app_assoc. apply K.
      * rewrite <- Eq. exact HWm.
      * split; [exact HL|exact HWa].
    + (* last (m :: b ++ h' :: a) -> m *)
      change (m :: b ++ h' :: a) with ((m :: b) ++ h' :: a). rewrite last_app_cons.
      destruct (exists_last (l := h' :: a)) as (q & z & Eq); [discriminate|].
      rewrite Eq, last_last. change (Walk R ((h' :: a) ++ m :: b)) in HW. rewrite Eq in HW.
      rewrite <- app_assoc in HW. destruct (walk_app_inv _ q _ HW) as [_ K]. simpl in K. tauto.
Qed.

Lemma canon_cycle R id c : SimpleCycle R c -> SimpleCycle R (canon id c).
Proof.
  intros H. destruct (canon_spec id c) as (m & a & b & E1 & E2 & _).
  { destruct H as (h & t & -> & _). discriminate. }
  rewrite E2. apply rotate_cycle. rewrite <- E1. assumption.
Qed.

(** ** The visitor *)
Section Visit.
  Context (succs : nat -> list edge) (pred : edge -> bool) (id : nat -> nat).
  Notation R := (Arc succs etgt pred).

  Lemma cyc_visit_app t1 t2 : cyc_visit id (t1 ++ t2) = fold_left (cyc_event id) t2 (cyc_visit id t1).
  Proof. unfold cyc_visit. apply fold_left_app. Qed.

  Lemma visit_inv s st tr : Steps succs etgt pred s st tr ->
    fst (cyc_visit id tr) = rev (map fst (snd st)) /\
    (forall c, In c (snd (cyc_visit id tr)) ->
       SimpleCycle R c /\ Canonical id c /\ forall x, In x c -> In x (ev_nodes tr)) /\
    (In (EVisited s) tr -> exists c, In c (snd (cyc_visit id tr)) /\ In s c).
  Proof.
    induction 1 as [|st tr st' evs HS IH Hst].
    - unfold cyc_visit. simpl. split; [reflexivity|]. split; [intros c []|].
      intros [H|[]]. discriminate.
    - destruct IH as (I1 & I2 & I3). pose proof (steps_inv _ _ _ _ _ _ HS) as I.
      rewrite cyc_visit_app. destruct (cyc_visit id tr) as [stk cs] eqn:CV. simpl in I1, I2, I3. subst stk.
      destruct st as [vis [|[n [|e r]] rest]]; simpl in Hst; [discriminate| |].
      + injection Hst as <- <-. simpl. rewrite removelast_app; [|discriminate]. simpl.
        rewrite app_nil_r. split; [reflexivity|]. split.
        * intros c Hc. destruct (I2 c Hc) as (A & B & C). repeat split; auto.
          intros x Hx. rewrite ev_nodes_app. apply in_app_iff. left. auto.
        * intros H. apply in_app_iff in H. destruct H as [H|[H|[]]]; [auto|discriminate].
      + destruct (pred e) eqn:Pe; simpl in Hst.
        2:{ injection Hst as <- <-. simpl. rewrite app_nil_r. auto. }
        destruct (mem (etgt e) vis) eqn:M; injection Hst as <- <-; simpl.
        2:{ split; [reflexivity|]. split.
            - intros c Hc. destruct (I2 c Hc) as (A & B & C). repeat split; auto.
              intros x Hx. rewrite ev_nodes_app. apply in_app_iff. left. auto.
            - intros H. apply in_app_iff in H. destruct H as [H|[H|[H|[]]]]; [auto|discriminate|discriminate]. }
        change (rev (map fst rest) ++ [n]) with (rev (n :: map fst rest)).
        destruct (suffix_from (etgt e) (rev (n :: map fst rest))) as [c|] eqn:SF.
        * cbn [fst snd]. split; [reflexivity|].
          destruct (suffix_from_spec _ _ _ SF) as (p & t & Hp & Hc & _).
          pose proof (di_walk _ _ _ _ _ _ I) as HW. simpl snd in HW. cbn [map fst] in HW.
          pose proof (di_stk_nodup _ _ _ _ _ _ I) as HN. simpl snd in HN. cbn [map fst] in HN.
          assert (Hcyc : SimpleCycle R c).
          { exists (etgt e), t. split; [exact Hc|]. apply NoDup_rev in HN. rewrite Hp in HN, HW.
            split; [now apply NoDup_app_r in HN|].
            split; [now destruct (walk_app_inv _ _ _ HW)|].
            assert (L : last c (etgt e) = n).
            { assert (E1 : last (p ++ c) (etgt e) = n) by (rewrite <- Hp; simpl; apply last_last).
              rewrite Hc in E1 |- *. now rewrite last_app_cons in E1. }
            rewrite L. exists e. split; [|auto].
            apply (di_stk_sub _ _ _ _ _ _ I n (e :: r) e); simpl; auto. }
          assert (Hin : forall x, In x c -> In x (ev_nodes tr)).
          { intros x Hx. rewrite (di_nodes _ _ _ _ _ _ I). apply -> in_rev.
            apply (di_stk_vis _ _ _ _ _ _ I). simpl snd. cbn [map fst].
            apply in_rev. rewrite Hp. apply in_app_iff. now right. }
          split.
          -- intros c' Hc'. apply in_app_iff in Hc'. rewrite ev_nodes_app. simpl. rewrite app_nil_r.
             destruct Hc' as [Hc'|[<-|[]]]; [now apply I2|].
             split; [now apply canon_cycle|]. split.
             ++ destruct (canon_spec id c) as (m & a & b & E1 & E2 & E3); [rewrite Hc; discriminate|].
                exists m, (b ++ a). split; [exact E2|]. intros x Hx. apply E3.
                apply (Permutation_in x (canon_perm id c)), Hx.
             ++ intros x Hx. apply Hin, (Permutation_in x (canon_perm id c)), Hx.
          -- intros H. apply in_app_iff in H. destruct H as [H|[H|[]]].
             ++ destruct (I3 H) as (d & Hd1 & Hd2). exists d. split; [apply in_app_iff; now left|assumption].
             ++ injection H as H. exists (canon id c). split; [apply in_app_iff; right; now left|].
                apply (Permutation_in s (Permutation_sym (canon_perm id c))). rewrite Hc. now left.
        * cbn [fst snd]. split; [reflexivity|]. rewrite ev_nodes_app. simpl. rewrite app_nil_r.
          split; [exact I2|]. intros H. apply in_app_iff in H. destruct H as [H|[H|[]]]; [auto|].
          exfalso. injection H as H.
          destruct (suffix_from_in (etgt e) (rev (n :: map fst rest))) as [c Hc]; [|congruence].
          rewrite <- in_rev, H.
          pose proof (di_bottom _ _ _ _ _ _ I) as HB. simpl snd in HB.
          specialize (HB ltac:(discriminate)). cbn [map fst] in HB. rewrite <- HB at 1.
          clear. generalize (map fst rest) as l. intros l. revert n.
          induction l as [|x l IHl]; intros n; [now left|]. right. apply (IHl x).
  Qed.
End Visit.

(** A tree target is never the start. *)
Lemma visited_start nl s tr u : dfs_fwd nl (pred_comb nl) s = Some tr -> WF nl ->
  In u (ev_nodes tr) -> Comb nl u s -> In (EVisited s) tr.
Proof.
  intros E W Hu Hc. apply (arc_comb nl) in Hc. destruct Hc as (e & He & Hp & Ht).
  destruct (dfs_spec _ _ _ _ _ _ E) as (ND & _ & HF & HT & _ & HP).
  assert (Hin : In s (ev_targets etgt tr)).
  { apply (Permutation_in s (Permutation_sym HP)). rewrite <- Ht. apply in_map.
    apply filter_In. split; [|assumption]. apply in_flat_map. eauto. }
  assert (Hno : ~ In s (map etgt (ev_edges tr))).
  { rewrite HT. destruct (ev_nodes tr) as [|x l]; [discriminate|]. injection HF as ->.
    simpl. now inversion ND. }
  clear -Hin Hno. induction tr as [|ev tr IH]; simpl in *; [tauto|].
  destruct ev as [n|e|n|]; simpl in *; auto.
  - destruct Hin as [H|H]; [tauto|]. right. apply IH; tauto.
  - destruct Hin as [->|H]; [now left|]. right. apply IH; tauto.
Qed.

Lemma insert_cycle_perm id c l : Permutation (insert_cycle id c l) (c :: l).
Proof.
  induction l as [|d l IH]; simpl; [constructor; constructor|].
  destruct (lex_ltb _ _); [reflexivity|]. rewrite IH. constructor.
Qed.
Lemma sort_cycles_perm id l : Permutation (sort_cycles id l) l.
Proof.
  unfold sort_cycles. induction l as [|c l IH]; simpl; [constructor|].
  rewrite insert_cycle_perm. now constructor.
Qed.

Section Detect.
  Context (nl : netlist) (W : WF nl).
  Notation id := (fun m => nid (ninf nl m)).

  Definition GoodCycle (c : list nat) : Prop :=
    SimpleCycle (Comb nl) c /\ Canonical id c /\ forall x, In x c -> In x (gnodes (ng nl)).

  Lemma reach_live s x : In s (gnodes (ng nl)) -> Reach (Comb nl) s x -> In x (gnodes (ng nl)).
  Proof.
    intros Hs. induction 1 as [|b c _ IH [(e & He & Ht & _) _]]; [assumption|].
    destruct (mir_out _ W b e He) as (_ & _ & K & _). congruence.
  Qed.

  Lemma detect_loop_spec : forall ns visited acc,
    NoDup ns -> (forall n, In n ns -> In n (gnodes (ng nl))) ->
    (forall c, In c acc -> GoodCycle c) ->
    (forall n, In n ns -> In n visited -> In n (concat acc)) ->
    exists cs, detect_loop nl ns visited acc = Some cs /\
      (forall c, In c cs -> GoodCycle c) /\
      (forall c, In c acc -> In c cs) /\
      (forall n, In n ns -> Reach1 (Comb nl) n n -> In n (concat cs)).
  Proof.
    induction ns as [|n ns IH]; intros visited acc HN HL HA HV; simpl.
    - exists acc. split; [reflexivity|]. split; [exact HA|]. split; [auto|]. intros n [].
    - inversion HN as [|? ? Hn HN']; subst.
      destruct (mem n visited) eqn:M.
      + apply mem_In in M. assert (Hc : In n (concat acc)) by (apply HV; [now left|assumption]).
        destruct (IH visited acc HN') as (cs & E & A & B & C).
        * intros m Hm. apply HL. now right.
        * assumption.
        * intros m Hm. apply HV. now right.
        * exists cs. split; [exact E|]. split; [exact A|]. split; [exact B|].
          intros m [<-|Hm] Hr; [|now apply C].
          apply in_concat in Hc. destruct Hc as (c & Hc1 & Hc2). apply in_concat. eauto.
      + assert (Hnl : In n (gnodes (ng nl))) by (apply HL; now left).
        destruct (dfs_fwd_total nl (pred_comb nl) n W Hnl) as [tr E]. rewrite E.
        destruct (dfs_steps _ _ _ _ _ _ E) as [vis HS].
        destruct (visit_inv _ _ id _ _ _ HS) as (_ & V2 & V3).
        destruct (dfs_spec _ _ _ _ _ _ E) as (_ & HR & _).
        set (new := snd (cyc_visit (fun m => nid (ninf nl m)) tr)) in *.
        assert (GN : forall c, In c new -> GoodCycle c).
        { intros c Hc. destruct (V2 c Hc) as (S1 & S2 & S3). split; [|split; [assumption|]].
          - destruct S1 as (h & t & -> & D1 & D2 & D3). exists h, t. split; [reflexivity|]. split; [exact D1|]. split.
            + eapply walk_iff; [|exact D2]. intros a b. apply arc_comb.
            + now apply arc_comb.
          - intros x Hx. apply S3, HR in Hx. rewrite (reach_iff _ _ (arc_comb nl)) in Hx.
            now apply (reach_live n). }
        destruct (IH (n :: visited ++ concat new) (acc ++ new) HN') as (cs & Ec & A & B & C).
        * intros m Hm. apply HL. now right.
        * intros c Hc. apply in_app_iff in Hc. destruct Hc; auto.
        * intros m Hm [Hv|Hv]; [subst; tauto|]. rewrite concat_app. apply in_app_iff.
          apply in_app_iff in Hv. destruct Hv as [Hv|Hv]; [|now right]. left. apply HV; [now right|assumption].
        * exists cs. split; [exact Ec|]. split; [exact A|]. split.
          { intros c Hc. apply B, in_app_iff. now left. }
          intros m [<-|Hm] Hr; [|now apply C].
          apply reach1_iff in Hr. destruct Hr as (u & Hu1 & Hu2).
          assert (Hu : In u (ev_nodes tr)) by (apply HR, (reach_iff _ _ (arc_comb nl)), Hu1).
          destruct (V3 (visited_start nl n tr u E W Hu Hu2)) as (c & Hc1 & Hc2).
          apply in_concat. exists c. split; [|assumption]. apply B, in_app_iff. now right.
  Qed.

  Lemma loops_spec : exists ls, getAllLoops nl = Some ls /\ NoDup ls /\
    (forall c, In c ls -> GoodCycle c) /\
    (forall n, Reach1 (Comb nl) n n -> exists c, In c ls /\ In n c).
  Proof.
    destruct (detect_loop_spec (gnodes (ng nl)) [] []) as (cs & E & A & _ & C).
    - apply W.
    - auto.
    - intros c [].
    - intros n _ [].
    - unfold getAllLoops. rewrite E. cbn [option_map]. eexists. split; [reflexivity|].
      set (ls := sort_cycles _ _).
      assert (P : Permutation ls (nodup (list_eq_dec Nat.eq_dec) cs)) by apply sort_cycles_perm.
      split; [|split].
      + apply (Permutation_NoDup (Permutation_sym P)), NoDup_nodup.
      + intros c Hc. apply A. apply (Permutation_in c P), nodup_In in Hc. assumption.
      + intros n Hr. assert (Hn : In n (gnodes (ng nl))).
        { apply reach1_iff in Hr. destruct Hr as (u & _ & (e & He & Ht & _) & _).
          destruct (mir_out _ W u e He) as (_ & _ & K & _). congruence. }
        specialize (C n Hn Hr). apply in_concat in C. destruct C as (c & Hc1 & Hc2).
        exists c. split; [|assumption]. apply (Permutation_in c (Permutation_sym P)), nodup_In, Hc1.
  Qed.
End Detect.

(** ** Order *)
Lemma lex_ltb_spec a b : lex_ltb a b = true <-> LexLt a b.
Proof.
  revert b. induction a as [|x a IH]; intros [|y b]; simpl.
  - split; [discriminate|inversion 1].
  - split; [constructor|reflexivity].
  - split; [discriminate|inversion 1].
  - destruct (Nat.ltb_spec x y).
    + split; [intros _; now constructor|reflexivity].
    + destruct (Nat.ltb_spec y x).
      * split; [discriminate|]. inversion 1; subst; lia.
      * assert (x = y) by lia. subst. rewrite IH. split; [now constructor|].
        inversion 1; subst; [lia|assumption].
Qed.

Lemma lex_total a b : LexLt a b \/ a = b \/ LexLt b a.
Proof.
  revert b. induction a as [|x a IH]; intros [|y b]; auto using LexLt.
  destruct (lt_eq_lt_dec x y) as [[H| ->]|H]; auto using LexLt.
  destruct (IH b) as [H|[->|H]]; auto using LexLt.
Qed.

Lemma lex_trans a b c : LexLt a b -> LexLt b c -> LexLt a c.
Proof.
  intros H. revert c. induction H as [y b|x y a b Hxy|x a b H IH]; intros c Hc;
    inversion Hc; subst; first [constructor; lia | constructor; now auto | constructor].
Qed.

Lemma map_inj_on (id : nat -> nat) : forall a b, 
  (forall x y, In x a -> In y b -> id x = id y -> x = y) -> map id a = map id b -> a = b.
Proof.
  induction a as [|x a IH]; intros [|y b] H E; simpl in *; try discriminate; auto.
  injection E as E1 E2. f_equal; [apply H; auto|apply IH; auto].
Qed.

Lemma insert_sorted id c l :
  (forall d, In d l -> map id c <> map id d) ->
  StronglySorted (fun a b => LexLt (map id a) (map id b)) l ->
  StronglySorted (fun a b => LexLt (map id a) (map id b)) (insert_cycle id c l).
Proof.
  induction l as [|d l IH]; intros Hne HS; simpl; [repeat constructor|].
  inversion HS as [|? ? HS' HF]; subst.
  destruct (lex_ltb (map id c) (map id d)) eqn:L.
  - apply lex_ltb_spec in L. constructor; [assumption|]. constructor; [assumption|].
    rewrite Forall_forall in *. intros x Hx. eapply lex_trans; eauto.
  - assert (D : LexLt (map id d) (map id c)).
    { destruct (lex_total (map id c) (map id d)) as [H|[H|H]]; auto.
      - apply lex_ltb_spec in H. congruence.
      - exfalso. now apply (Hne d); [left|]. }
    constructor.
    + apply IH; [|assumption]. intros x Hx. apply Hne. now right.
    + rewrite Forall_forall in *. intros x Hx.
      apply (Permutation_in x (insert_cycle_perm id c l)) in Hx. destruct Hx as [<-|Hx]; auto.
Qed.

Lemma sort_sorted id : forall l, NoDup (map (map id) l) ->
  StronglySorted (fun a b => LexLt (map id a) (map id b)) (sort_cycles id l).
Proof.
  induction l as [|c l IH]; simpl; [constructor|]. intros H. inversion H as [|? ? H1 H2]; subst.
  apply insert_sorted; [|now apply IH]. intros d Hd E. apply H1. rewrite E. apply in_map.
  apply (Permutation_in d (sort_cycles_perm id l)), Hd.
Qed.

Definition DistinctIDs (nl : netlist) : Prop :=
  forall a b, In a (gnodes (ng nl)) -> In b (gnodes (ng nl)) ->
    nid (ninf nl a) = nid (ninf nl b) -> a = b.

Lemma NoDup_map_inj_in {A B} (f : A -> B) l :
  (forall x y, In x l -> In y l -> f x = f y -> x = y) -> NoDup l -> NoDup (map f l).
Proof.
  induction l as [|x l IH]; intros Hf H; simpl; [constructor|].
  inversion H as [|? ? H1 H2]; subst. constructor.
  - intros K. apply in_map_iff in K. destruct K as (y & Hy & Hin).
    apply H1. rewrite (Hf x y); auto; [now left|now right].
  - apply IH; auto. intros a b Ha Hb. apply Hf; now right.
Qed.

Lemma loops_sorted nl ls : WF nl -> DistinctIDs nl -> getAllLoops nl = Some ls ->
  StronglySorted (fun a b => LexLt (map (fun m => nid (ninf nl m)) a) (map (fun m => nid (ninf nl m)) b)) ls.
Proof.
  intros W D. destruct (detect_loop_spec nl W (gnodes (ng nl)) [] []) as (cs & E & A & _ & C).
  - apply W.
  - auto.
  - intros c [].
  - intros n _ [].
  - unfold getAllLoops. rewrite E. cbn [option_map]. intros H. injection H as <-.
    apply sort_sorted, NoDup_map_inj_in; [|apply NoDup_nodup].
    intros x y Hx Hy Exy. apply nodup_In in Hx. apply nodup_In in Hy.
    destruct (A _ Hx) as (_ & _ & Lx). destruct (A _ Hy) as (_ & _ & Ly).
    apply map_inj_on in Exy; auto.
Qed.

(** The IDs of two differently rotated lists of the same cycle agree only when equal:
    a canonical cycle with distinct IDs has one rotation starting at the least ID. *)
Lemma canonical_rotation nl a m b : 
  (forall x y, In x (a ++ m :: b) -> In y (a ++ m :: b) -> nid (ninf nl x) = nid (ninf nl y) -> x = y) ->
  NoDup (a ++ m :: b) ->
  Canonical (fun m => nid (ninf nl m)) (a ++ m :: b) ->
  Canonical (fun m => nid (ninf nl m)) (m :: b ++ a) -> a = [].
Proof.
  intros Hinj ND (x & t & E & Hx) (y & u & E' & Hy). injection E' as <- <-.
  destruct a as [|h a]; [reflexivity|exfalso]. simpl in E. injection E as <- <-.
  assert (h = m).
  { apply Hinj; [now left|apply in_app_iff; right; now left|]. apply Nat.le_antisymm.
    - apply Hx. apply in_app_iff; right; now left.
    - apply Hy. right. apply in_app_iff. right. now left. }
  subst. simpl in ND. inversion ND as [|? ? H _]; subst. apply H, in_app_iff. right. now left.
Qed.

(** ** C14, C15 *)
Lemma c14 nl : WF nl -> DistinctIDs nl -> exists ls, getAllLoops nl = Some ls /\ (forall c, In c ls -> SimpleCycle (Comb nl) c /\ Canonical (fun m => nid (ninf nl m)) c) /\ (forall a b c, In c ls -> c = a ++ b -> In (b ++ a) ls -> b ++ a = c) /\ NoDup ls /\ StronglySorted (fun a b => LexLt (map (fun m => nid (ninf nl m)) a) (map (fun m => nid (ninf nl m)) b)) ls.
Proof.
  intros W D. destruct (loops_spec nl W) as (ls & E & ND & G & _). exists ls.
  split; [assumption|]. split; [intros c Hc; now destruct (G c Hc) as (G1 & G2 & _)|].
  split; [|split; [assumption|now apply loops_sorted]].
  intros a b c Hc -> Hba. destruct b as [|m b]; [now rewrite app_nil_r|].
  destruct (G _ Hc) as ((h & t & _ & N & _) & C1 & L). destruct (G _ Hba) as (_ & C2 & _).
  simpl app in C2.
  assert (a = []) as ->.
  { destruct a as [|h' a]; [reflexivity|].
    eapply (canonical_rotation nl (h' :: a) m b); eauto. }
  now rewrite app_nil_r.
Qed.

Lemma cycle_reach R c : SimpleCycle R c -> forall n, In n c -> Reach1 R n n.
Proof.
  intros H n Hn. apply in_split in Hn. destruct Hn as (a & b & ->).
  apply rotate_cycle in H. destruct H as (h & t & E & _ & HW & HL). injection E as <- <-.
  apply reach1_iff. exists (last (n :: b ++ a) n). split; [|assumption].
  now apply (walk_reach _ (b ++ a)).
Qed.

Lemma c15 nl : WF nl -> exists ls, getAllLoops nl = Some ls /\ (ls = [] <-> ~ exists n, Reach1 (Comb nl) n n) /\ (forall n, Reach1 (Comb nl) n n <-> exists c, In c ls /\ In n c).
Proof.
  intros W. destruct (loops_spec nl W) as (ls & E & ND & G & C). exists ls. split; [assumption|].
  assert (K : forall n, Reach1 (Comb nl) n n <-> exists c, In c ls /\ In n c).
  { intros n. split; [apply C|]. intros (c & Hc & Hn). destruct (G c Hc) as (S & _).
    now apply (cycle_reach _ c). }
  split; [|assumption]. split.
  - intros -> (n & Hn). apply K in Hn. destruct Hn as (c & [] & _).
  - intros H. destruct ls as [|c ls]; [reflexivity|]. exfalso. apply H.
    destruct (G c (or_introl eq_refl)) as ((h & t & -> & _) & _).
    exists h. apply K. exists (h :: t). split; now left.
Qed.
