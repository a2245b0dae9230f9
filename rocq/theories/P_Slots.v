(** Proofs about slot allocation. *)
From Verif Require Import Base M_Slots.

Definition pidx (p : spc) : option nat :=
  match p with
  | SIdle | SMissed | SCand _ => None
  | SWon i | SIdx i | SCheck i | SGrow i | SGrowing i | SGrown i | SRelock i | SGo i | SBody i | SDone i => Some i
  end.
Definition reads (p : spc) : bool := match p with SCheck _ | SGo _ | SBody _ | SDone _ => true | _ => false end.
Definition writes (p : spc) : bool := match p with SGrowing _ | SGrown _ => true | _ => false end.
Definition inslot (p : spc) : option nat := match p with SBody i | SDone i => Some i | _ => None end.
Definition sized (p : spc) : option nat :=
  match p with SGrown i | SRelock i | SGo i | SBody i | SDone i => Some i | _ => None end.

Lemma nget_snoc m k d k' : nget (m ++ [(k, d)]) k' =
  match nget m k' with Some i => Some i | None => if Nat.eqb k k' then Some d else None end.
Proof. induction m as [|[a b] m IH]; simpl; [reflexivity|]. destruct (Nat.eqb a k'); auto. Qed.
Lemma nget_In m k i : nget m k = Some i -> In (k, i) m.
Proof.
  induction m as [|[a b] m IH]; simpl; [discriminate|]. destruct (Nat.eqb_spec a k) as [->|].
  - intros [= ->]. now left.
  - auto.
Qed.
Lemma nget_none m k : nget m k = None <-> ~ In k (map fst m).
Proof.
  induction m as [|[a b] m IH]; simpl; [tauto|]. destruct (Nat.eqb_spec a k) as [->|N].
  - split; [discriminate|tauto].
  - rewrite IH. split; [intros H [E|E]; auto|tauto].
Qed.
Lemma In_nget m k i : NoDup (map fst m) -> In (k, i) m -> nget m k = Some i.
Proof.
  induction m as [|[a b] m IH]; simpl; [tauto|]. intros ND H. inversion_clear ND as [|? ? H1 H2].
  destruct H as [[= -> ->]|H]; [now rewrite Nat.eqb_refl|].
  destruct (Nat.eqb_spec a k) as [->|]; auto. destruct H1. apply in_map_iff. now exists (k, i).
Qed.
Lemma snd_inj (m : list (nat * nat)) : NoDup (map snd m) -> forall a b i, In (a, i) m -> In (b, i) m -> a = b.
Proof.
  induction m as [|[x y] m IH]; simpl; [tauto|]. intros ND a b i Ha Hb. inversion_clear ND as [|? ? H1 H2].
  destruct Ha as [[= -> ->]|Ha], Hb as [Hb|Hb].
  - congruence.
  - destruct H1. apply in_map_iff. now exists (b, i).
  - injection Hb as -> ->. destruct H1. apply in_map_iff. now exists (a, i).
  - eauto.
Qed.

Lemma Forall2_mono {A B} (R Q : A -> B -> Prop) l1 l2 : (forall a b, R a b -> Q a b) -> Forall2 R l1 l2 -> Forall2 Q l1 l2.
Proof. induction 2; constructor; auto. Qed.

Record AInv (progs : list (list scall)) (s : sstate) : Prop := {
  ai_keys : NoDup (map fst (v2s s));
  ai_vals : NoDup (map snd (v2s s));
  ai_lt : forall i, In i (map snd (v2s s)) -> i < nexts s;
  ai_cand : forall t d, spcof (sth s t) = SCand d -> d < nexts s /\ ~ In d (map snd (v2s s));
  ai_cand1 : forall t u d, spcof (sth s t) = SCand d -> spcof (sth s u) = SCand d -> t = u;
  ai_idx : forall t i c l, stodo (sth s t) = c :: l -> pidx (spcof (sth s t)) = Some i ->
    nget (v2s s) (s_sym c) = Some i;
  ai_busy : forall t, spcof (sth s t) <> SIdle -> stodo (sth s t) <> [];
  ai_done : forall t, exists done, nth t progs [] = done ++ stodo (sth s t) /\
    Forall2 (fun c i => nget (v2s s) (s_sym c) = Some i) done (srets (sth s t));
  ai_rev : forall d x, In (d, x) (s2v s) -> nget (v2s s) x = Some d;
  ai_rev1 : NoDup (map fst (s2v s));
  ai_rev2 : forall x d, nget (v2s s) x = Some d -> In (d, x) (s2v s) \/
    exists t c l, stodo (sth s t) = c :: l /\ s_sym c = x /\ spcof (sth s t) = SWon d;
  ai_won : forall t d, spcof (sth s t) = SWon d -> ~ In d (map fst (s2v s));
  ai_won1 : forall t u d, spcof (sth s t) = SWon d -> spcof (sth s u) = SWon d -> t = u }.

Lemma ainv_init progs : AInv progs (sinit progs).
Proof.
  constructor; simpl; try easy; try constructor.
  exists []. split; [reflexivity|constructor].
Qed.

(** Two transitions in one: [v2s] and [s2v] unchanged, thread moves to a pc that is
    neither SCand nor SWon. *)
Lemma ainv_silent progs s t p s' : AInv progs s ->
  v2s s' = v2s s -> s2v s' = s2v s -> nexts s' = nexts s ->
  sth s' = sset s t p ->
  stodo (sth s t) <> [] ->
  (forall d, p <> SCand d) -> (forall d, p <> SWon d) -> (forall d, spcof (sth s t) <> SWon d) ->
  (pidx p = None \/ pidx p = pidx (spcof (sth s t)) \/
   exists c l i, stodo (sth s t) = c :: l /\ pidx p = Some i /\ nget (v2s s) (s_sym c) = Some i) ->
  AInv progs s'.
Proof.
  intros I E1 E2 E3 ET TD NC NW NW' HV. unfold sset in ET. constructor; rewrite ?E1, ?E2, ?E3, ?ET; try apply I.
  - intros u d. unfold upd. destruct (Nat.eqb_spec u t) as [->|]; [simpl; intros H; destruct (NC d); auto|apply (ai_cand _ _ I)].
  - intros u w d. unfold upd. destruct (Nat.eqb_spec u t) as [->|]; [simpl; intros H; destruct (NC d); auto|].
    destruct (Nat.eqb_spec w t) as [->|]; [simpl; intros _ H; destruct (NC d); auto|apply (ai_cand1 _ _ I)].
  - intros u i c l. unfold upd. destruct (Nat.eqb_spec u t) as [->|]; [simpl|apply (ai_idx _ _ I)].
    intros T HP. destruct HV as [HV|[HV|(c' & l' & i' & T' & HV & G)]].
    + congruence.
    + rewrite HP in HV. symmetry in HV. eapply (ai_idx _ _ I); eauto.
    + rewrite T in T'. injection T' as <- <-. congruence.
  - intros u. unfold upd. destruct (Nat.eqb_spec u t) as [->|]; [simpl; auto|apply I].
  - intros u. unfold upd. destruct (Nat.eqb_spec u t) as [->|]; simpl; apply I.
  - intros x d H. destruct (ai_rev2 _ _ I x d H) as [K|(u & c & l & K1 & K2 & K3)]; [now left|right].
    exists u, c, l. rewrite upd_other; [auto|]. intros ->. now destruct (NW' d).
  - intros u d. unfold upd. destruct (Nat.eqb_spec u t) as [->|]; [simpl; intros H; destruct (NW d); auto|apply (ai_won _ _ I)].
  - intros u w d. unfold upd. destruct (Nat.eqb_spec u t) as [->|]; [simpl; intros H; destruct (NW d); auto|].
    destruct (Nat.eqb_spec w t) as [->|]; [simpl; intros _ H; destruct (NW d); auto|apply (ai_won1 _ _ I)].
Qed.

Lemma ainv_step progs s s' t : AInv progs s -> sstep t s = Some s' -> AInv progs s'.
Proof.
  intros I H. unfold sstep in H. destruct (stodo (sth s t)) as [|c l] eqn:T; [discriminate|].
  assert (TD : stodo (sth s t) <> []) by (rewrite T; discriminate).
  destruct (spcof (sth s t)) eqn:P.
  - destruct (nget (v2s s) (s_sym c)) as [i|] eqn:G; injection H as <-.
    + apply (ainv_silent progs s t (SIdx i)); auto; rewrite ?P; try discriminate.
      right. right. exists c, l, i. rewrite T. auto.
    + apply (ainv_silent progs s t SMissed); auto; rewrite ?P; try discriminate; auto.
  - (* fetch_add *)
    injection H as <-. constructor; simpl; try apply I.
    + intros i Hi. apply (ai_lt _ _ I) in Hi. lia.
    + intros u d. unfold sset, upd. destruct (Nat.eqb_spec u t) as [->|]; simpl.
      * intros [= <-]. split; [lia|]. intros K. apply (ai_lt _ _ I) in K. lia.
      * intros K. destruct (ai_cand _ _ I _ _ K). split; [lia|assumption].
    + intros u w d. unfold sset, upd. destruct (Nat.eqb_spec u t) as [->|], (Nat.eqb_spec w t) as [->|]; simpl; auto.
      * intros [= <-] K. destruct (ai_cand _ _ I _ _ K). lia.
      * intros K [= <-]. destruct (ai_cand _ _ I _ _ K). lia.
      * apply (ai_cand1 _ _ I).
    + intros u i c' l'. unfold sset, upd. destruct (Nat.eqb_spec u t) as [->|]; simpl; [discriminate|apply (ai_idx _ _ I)].
    + intros u. unfold sset, upd. destruct (Nat.eqb_spec u t) as [->|]; [simpl; auto|apply I].
    + intros u. unfold sset, upd. destruct (Nat.eqb_spec u t) as [->|]; simpl; apply I.
    + intros x d H. destruct (ai_rev2 _ _ I x d H) as [K|(u & c' & l' & K1 & K2 & K3)]; [now left|right].
      exists u, c', l'. unfold sset. rewrite upd_other; [auto|]. congruence.
    + intros u d. unfold sset, upd. destruct (Nat.eqb_spec u t) as [->|]; [simpl; discriminate|apply (ai_won _ _ I)].
    + intros u w d. unfold sset, upd. destruct (Nat.eqb_spec u t) as [->|]; [simpl; discriminate|].
      destruct (Nat.eqb_spec w t) as [->|]; [simpl; discriminate|apply (ai_won1 _ _ I)].
  - destruct (nget (v2s s) (s_sym c)) as [i|] eqn:G; injection H as <-.
    + apply (ainv_silent progs s t (SIdx i)); auto; rewrite ?P; try discriminate.
      right. right. exists c, l, i. rewrite T. auto.
    + (* try_emplace succeeds *)
      rename c0 into d0. destruct (ai_cand _ _ I _ _ P) as [LT NI]. 
      assert (MONO : forall x i, nget (v2s s) x = Some i -> nget (v2s s ++ [(s_sym c, d0)]) x = Some i).
      { intros x i K. rewrite nget_snoc, K. reflexivity. }
      assert (NREV : ~ In d0 (map fst (s2v s))).
      { intros K. apply in_map_iff in K. destruct K as ([a b] & E & K). simpl in E. subst a.
        apply (ai_rev _ _ I) in K. apply nget_In in K. apply NI. apply in_map_iff. now exists (b, d0). }
      constructor; simpl.
      * rewrite map_app. apply NoDup_app_intro; [apply I|constructor; [easy|constructor]|].
        intros x K [<-|[]]. apply nget_none in G. auto.
      * rewrite map_app. apply NoDup_app_intro; [apply I|constructor; [easy|constructor]|].
        intros x K [<-|[]]. auto.
      * intros i. rewrite map_app, in_app_iff. intros [K|[<-|[]]]; [now apply (ai_lt _ _ I)|assumption].
      * intros u d. unfold sset, upd. destruct (Nat.eqb_spec u t) as [->|N]; simpl; [discriminate|].
        intros K. destruct (ai_cand _ _ I _ _ K) as [K1 K2]. split; [assumption|].
        rewrite map_app, in_app_iff. intros [K3|[<-|[]]]; [auto|]. simpl in *. apply N. eapply (ai_cand1 _ _ I); eauto.
      * intros u w d. unfold sset, upd. destruct (Nat.eqb_spec u t) as [->|]; [simpl; discriminate|].
        destruct (Nat.eqb_spec w t) as [->|]; [simpl; discriminate|apply (ai_cand1 _ _ I)].
      * intros u i c' l'. unfold sset, upd. destruct (Nat.eqb_spec u t) as [->|]; simpl.
        -- rewrite T. intros [= <- <-] [= <-]. rewrite nget_snoc, G, Nat.eqb_refl. reflexivity.
        -- intros K1 K2. apply MONO. eapply (ai_idx _ _ I); eauto.
      * intros u. unfold sset, upd. destruct (Nat.eqb_spec u t) as [->|]; [simpl; auto|apply I].
      * intros u. destruct (ai_done _ _ I u) as (dn & D1 & D2). exists dn. unfold sset, upd.
        assert (D3 : Forall2 (fun c0 i => nget (v2s s ++ [(s_sym c, d0)]) (s_sym c0) = Some i) dn (srets (sth s u))).
        { eapply Forall2_mono; [|exact D2]. intros; now apply MONO. }
        destruct (Nat.eqb_spec u t) as [->|]; simpl; auto.
      * intros d x K. apply MONO. now apply (ai_rev _ _ I).
      * apply I.
      * intros x d. rewrite nget_snoc. destruct (nget (v2s s) x) eqn:K.
        -- intros [= <-]. destruct (ai_rev2 _ _ I x _ K) as [K0|(u & c' & l' & K1 & K2 & K3)]; [now left|right].
           exists u, c', l'. unfold sset. rewrite upd_other; [auto|]. congruence.
        -- destruct (Nat.eqb_spec (s_sym c) x) as [E|]; [|discriminate]. intros [= <-]. right.
           exists t, c, l. unfold sset. rewrite upd_same. simpl. auto.
      * intros u d. unfold sset, upd. destruct (Nat.eqb_spec u t) as [->|]; [simpl; intros [= <-]; auto|apply (ai_won _ _ I)].
      * assert (NW : forall u, spcof (sth s u) <> SWon d0).
        { intros u K. pose proof (ai_busy _ _ I u) as B. destruct (stodo (sth s u)) as [|c' l'] eqn:TU.
          - apply B; [rewrite K; discriminate|reflexivity].
          - pose proof (ai_idx _ _ I u d0 c' l' TU) as J. rewrite K in J. specialize (J eq_refl). apply nget_In in J.
            apply NI. apply in_map_iff. now exists (s_sym c', d0). }
        intros u w d. unfold sset, upd. destruct (Nat.eqb_spec u t) as [->|], (Nat.eqb_spec w t) as [->|]; simpl; auto.
        -- intros [= <-] K. now destruct (NW w).
        -- intros K [= <-]. now destruct (NW u).
        -- apply (ai_won1 _ _ I).
  - (* slotToValue.emplace *)
    rename c0 into d0. injection H as <-. constructor; simpl; try apply I.
    + intros u d. unfold sset, upd. destruct (Nat.eqb_spec u t) as [->|]; [simpl; discriminate|apply (ai_cand _ _ I)].
    + intros u w d. unfold sset, upd. destruct (Nat.eqb_spec u t) as [->|]; [simpl; discriminate|].
      destruct (Nat.eqb_spec w t) as [->|]; [simpl; discriminate|apply (ai_cand1 _ _ I)].
    + intros u i c' l'. unfold sset, upd. destruct (Nat.eqb_spec u t) as [->|]; simpl; [|apply (ai_idx _ _ I)].
      intros K1 [= <-]. eapply (ai_idx _ _ I); eauto. now rewrite P.
    + intros u. unfold sset, upd. destruct (Nat.eqb_spec u t) as [->|]; [simpl; auto|apply I].
    + intros u. unfold sset, upd. destruct (Nat.eqb_spec u t) as [->|]; simpl; apply I.
    + intros d x K. apply in_app_iff in K. destruct K as [K|[[= <- <-]|[]]]; [now apply (ai_rev _ _ I)|].
      eapply (ai_idx _ _ I); eauto. now rewrite P.
    + rewrite map_app. apply NoDup_app_intro; [apply I|constructor; [easy|constructor]|].
      intros x K [<-|[]]. simpl in K. now apply (ai_won _ _ I t d0 P).
    + intros x d H. destruct (ai_rev2 _ _ I x d H) as [K|(u & c' & l' & K1 & K2 & K3)].
      * left. apply in_app_iff. now left.
      * destruct (Nat.eq_dec u t) as [->|N].
        -- left. rewrite T in K1. injection K1 as <- <-. rewrite P in K3. injection K3 as <-. rewrite <- K2.
           apply in_app_iff. right. now left.
        -- right. exists u, c', l'. unfold sset. now rewrite upd_other.
    + intros u d. unfold sset, upd. destruct (Nat.eqb_spec u t) as [->|N]; [simpl; discriminate|].
      intros K. rewrite map_app, in_app_iff. intros [K1|[<-|[]]]; [now apply (ai_won _ _ I _ _ K)|].
      apply N. eapply (ai_won1 _ _ I); eauto.
    + intros u w d. unfold sset, upd. destruct (Nat.eqb_spec u t) as [->|]; [simpl; discriminate|].
      destruct (Nat.eqb_spec w t) as [->|]; [simpl; discriminate|apply (ai_won1 _ _ I)].
  - destruct (writer s); [discriminate|]. injection H as <-.
    apply (ainv_silent progs s t (SCheck i)); auto; rewrite ?P; try discriminate; simpl; auto.
  - destruct (_ || _); injection H as <-.
    + apply (ainv_silent progs s t (SGrow i)); auto; rewrite ?P; try discriminate; simpl; auto.
    + apply (ainv_silent progs s t (SGo i)); auto; rewrite ?P; try discriminate; simpl; auto.
  - destruct (writer s); [discriminate|]. destruct (readers s); [|discriminate]. injection H as <-.
    apply (ainv_silent progs s t (SGrowing i)); auto; rewrite ?P; try discriminate; simpl; auto.
  - injection H as <-. apply (ainv_silent progs s t (SGrown i)); auto; rewrite ?P; try discriminate; simpl; auto.
  - injection H as <-. apply (ainv_silent progs s t (SRelock i)); auto; rewrite ?P; try discriminate; simpl; auto.
  - destruct (writer s); [discriminate|]. injection H as <-.
    apply (ainv_silent progs s t (SGo i)); auto; rewrite ?P; try discriminate; simpl; auto.
  - destruct (Nat.leb (asize s) i).
    + injection H as <-. apply (ainv_silent progs s t (SBody i)); auto; rewrite ?P; try discriminate; simpl; auto.
    + destruct (slock s i); [discriminate|]. injection H as <-.
      apply (ainv_silent progs s t (SBody i)); auto; rewrite ?P; try discriminate; simpl; auto.
  - injection H as <-. apply (ainv_silent progs s t (SDone i)); auto; rewrite ?P; try discriminate; simpl; auto.
  - (* return *)
    injection H as <-. constructor; simpl; try apply I.
    + intros u d. unfold upd. destruct (Nat.eqb_spec u t) as [->|]; [simpl; discriminate|apply (ai_cand _ _ I)].
    + intros u w d. unfold upd. destruct (Nat.eqb_spec u t) as [->|]; [simpl; discriminate|].
      destruct (Nat.eqb_spec w t) as [->|]; [simpl; discriminate|apply (ai_cand1 _ _ I)].
    + intros u j c' l'. unfold upd. destruct (Nat.eqb_spec u t) as [->|]; simpl; [discriminate|apply (ai_idx _ _ I)].
    + intros u. unfold upd. destruct (Nat.eqb_spec u t) as [->|]; [simpl; tauto|apply I].
    + intros u. destruct (ai_done _ _ I u) as (dn & D1 & D2). unfold upd. destruct (Nat.eqb_spec u t) as [->|]; simpl; eauto.
      exists (dn ++ [c]). rewrite T in D1. rewrite <- app_assoc. split; [exact D1|].
      apply Forall2_app; [assumption|]. constructor; [|constructor]. eapply (ai_idx _ _ I); eauto. now rewrite P.
    + intros x d H. destruct (ai_rev2 _ _ I x d H) as [K|(u & c' & l' & K1 & K2 & K3)]; [now left|right].
      exists u, c', l'. rewrite upd_other; [auto|]. congruence.
    + intros u d. unfold upd. destruct (Nat.eqb_spec u t) as [->|]; [simpl; discriminate|apply (ai_won _ _ I)].
    + intros u w d. unfold upd. destruct (Nat.eqb_spec u t) as [->|]; [simpl; discriminate|].
      destruct (Nat.eqb_spec w t) as [->|]; [simpl; discriminate|apply (ai_won1 _ _ I)].
Qed.

Lemma sexec_ind (Q : sstate -> Prop) : (forall s s' t, Q s -> sstep t s = Some s' -> Q s') ->
  forall sched s s', Q s -> sexec sched s = Some s' -> Q s'.
Proof.
  intros ST. induction sched as [|t r IH]; intros s s' HQ E; simpl in E; [congruence|].
  destruct (sstep t s) as [s1|] eqn:S; [|discriminate]. apply (IH s1 s'); eauto.
Qed.
Lemma ainv_exec progs sched s : sexec sched (sinit progs) = Some s -> AInv progs s.
Proof. apply sexec_ind; [intros; eapply ainv_step; eauto|apply ainv_init]. Qed.

(** ** Locks and bounds *)
Record BInv (s : sstate) : Prop := {
  bi_read : forall t, In t (readers s) <-> reads (spcof (sth s t)) = true;
  bi_write : forall t, writer s = Some t <-> writes (spcof (sth s t)) = true;
  bi_excl : writer s <> None -> readers s = [];
  bi_slot : forall t i, slock s i = Some t <-> inslot (spcof (sth s t)) = Some i;
  bi_size : forall t i c l, stodo (sth s t) = c :: l -> sized (spcof (sth s t)) = Some i ->
    i < dsize s (s_vec c) /\ i < asize s;
  bi_busy : forall t, spcof (sth s t) <> SIdle -> stodo (sth s t) <> [];
  bi_ub : ub s = false }.
Lemma binv_init progs : BInv (sinit progs).
Proof. constructor; simpl; try easy. Qed.
Lemma In_drop t u l : In u (drop t l) <-> In u l /\ u <> t.
Proof. unfold drop. rewrite filter_In. destruct (Nat.eqb_spec u t); simpl; intuition congruence. Qed.

Lemma binv_silent s s' t p : BInv s -> stodo (sth s t) <> [] ->
  sth s' = sset s t p -> readers s' = readers s -> writer s' = writer s -> slock s' = slock s ->
  dsize s' = dsize s -> asize s' = asize s -> ub s' = ub s ->
  reads p = reads (spcof (sth s t)) -> writes p = writes (spcof (sth s t)) ->
  inslot p = inslot (spcof (sth s t)) ->
  (forall i c l, stodo (sth s t) = c :: l -> sized p = Some i -> i < dsize s (s_vec c) /\ i < asize s) -> BInv s'.
Proof.
  intros I TD E1 E2 E3 E4 E5 E6 E7 H1 H2 H3 H4.
  constructor; rewrite ?E1, ?E2, ?E3, ?E4, ?E5, ?E6, ?E7; unfold sset; try apply I.
  - intros u. rewrite (bi_read _ I u). unfold upd. destruct (Nat.eqb_spec u t) as [->|]; [simpl; now rewrite H1|tauto].
  - intros u. rewrite (bi_write _ I u). unfold upd. destruct (Nat.eqb_spec u t) as [->|]; [simpl; now rewrite H2|tauto].
  - intros u i. rewrite (bi_slot _ I u). unfold upd. destruct (Nat.eqb_spec u t) as [->|]; [simpl; now rewrite H3|tauto].
  - intros u i c l. unfold upd. destruct (Nat.eqb_spec u t) as [->|]; [simpl; apply H4|apply (bi_size _ I)].
  - intros u. unfold upd. destruct (Nat.eqb_spec u t) as [->|]; [simpl; auto|apply I].
Qed.

Ltac sil I TD := eapply (binv_silent _ _ _ _ I TD);
  [reflexivity|reflexivity|reflexivity|reflexivity|reflexivity|reflexivity|reflexivity| | | |].

Lemma binv_step s s' t : BInv s -> sstep t s = Some s' -> BInv s'.
Proof.
  intros I H. unfold sstep in H. destruct (stodo (sth s t)) as [|c l] eqn:T; [discriminate|].
  assert (TD : stodo (sth s t) <> []) by (rewrite T; discriminate).
  assert (RD := bi_read _ I t). assert (WR := bi_write _ I t). assert (SL := bi_slot _ I t).
  assert (SZ := fun i => bi_size _ I t i c l T).
  destruct (spcof (sth s t)) eqn:P; cbn [reads writes inslot sized] in RD, WR, SL, SZ.
  - destruct (nget _ _) as [i|]; injection H as <-; sil I TD; try (now rewrite P); discriminate.
  - injection H as <-; sil I TD; try (now rewrite P); discriminate.
  - destruct (nget _ _) as [i|]; injection H as <-; sil I TD; try (now rewrite P); discriminate.
  - injection H as <-; sil I TD; try (now rewrite P); discriminate.
  - (* lock shared *)
    destruct (writer s) eqn:W; [discriminate|]. injection H as <-. constructor; simpl; unfold sset; try apply I.
    + intros u. unfold upd. destruct (Nat.eqb_spec u t) as [->|N]; simpl; [tauto|]. rewrite (bi_read _ I u). intuition congruence.
    + intros u. unfold upd. destruct (Nat.eqb_spec u t) as [->|N]; simpl; [split; discriminate|]. rewrite <- (bi_write _ I u), W. tauto.
    + tauto.
    + intros u j. unfold upd. destruct (Nat.eqb_spec u t) as [->|N]; simpl; [rewrite (SL j); tauto|apply (bi_slot _ I)].
    + intros u j c' l'. unfold upd. destruct (Nat.eqb_spec u t) as [->|]; [simpl; discriminate|apply (bi_size _ I)].
    + intros u. unfold upd. destruct (Nat.eqb_spec u t) as [->|]; [simpl; auto|apply I].
  - destruct (_ || _) eqn:C; injection H as <-.
    + (* unlock shared *)
      constructor; simpl; unfold sset; try apply I.
      * intros u. rewrite In_drop. unfold upd. destruct (Nat.eqb_spec u t) as [->|N]; simpl; [intuition discriminate|]. rewrite (bi_read _ I u). tauto.
      * intros u. rewrite (bi_write _ I u). unfold upd. destruct (Nat.eqb_spec u t) as [->|N]; simpl; [now rewrite P|tauto].
      * intros W. rewrite (bi_excl _ I W). reflexivity.
      * intros u j. unfold upd. destruct (Nat.eqb_spec u t) as [->|N]; simpl; [rewrite (SL j); tauto|apply (bi_slot _ I)].
      * intros u j c' l'. unfold upd. destruct (Nat.eqb_spec u t) as [->|]; [simpl; discriminate|apply (bi_size _ I)].
      * intros u. unfold upd. destruct (Nat.eqb_spec u t) as [->|]; [simpl; auto|apply I].
    + apply orb_false_iff in C. rewrite !Nat.leb_gt in C.
      sil I TD; try (now rewrite P). rewrite T. intros j c' l' [= <- <-] [= <-]. exact C.
  - (* lock unique *)
    destruct (writer s) eqn:W; [discriminate|]. destruct (readers s) eqn:R; [|discriminate]. injection H as <-.
    constructor; simpl; unfold sset; try apply I.
    + intros u. unfold upd. destruct (Nat.eqb_spec u t) as [->|N]; simpl; [intuition discriminate|]. rewrite <- (bi_read _ I u), R. simpl. tauto.
    + intros u. unfold upd. destruct (Nat.eqb_spec u t) as [->|N]; simpl; [tauto|]. rewrite <- (bi_write _ I u), W. split; congruence.
    + reflexivity.
    + intros u j. unfold upd. destruct (Nat.eqb_spec u t) as [->|N]; simpl; [rewrite (SL j); tauto|apply (bi_slot _ I)].
    + intros u j c' l'. unfold upd. destruct (Nat.eqb_spec u t) as [->|]; [simpl; discriminate|apply (bi_size _ I)].
    + intros u. unfold upd. destruct (Nat.eqb_spec u t) as [->|]; [simpl; auto|apply I].
  - (* resize *)
    injection H as <-.
    assert (DM : forall v, dsize s v <= (if Nat.leb (dsize s (s_vec c)) i then upd (dsize s) (s_vec c) (S i) else dsize s) v).
    { intros v. destruct (Nat.leb_spec (dsize s (s_vec c)) i); [|lia]. unfold upd. destruct (Nat.eqb_spec v (s_vec c)); subst; lia. }
    assert (DI : i < (if Nat.leb (dsize s (s_vec c)) i then upd (dsize s) (s_vec c) (S i) else dsize s) (s_vec c)).
    { destruct (Nat.leb_spec (dsize s (s_vec c)) i); [rewrite upd_same|]; lia. }
    assert (AM : asize s <= (if Nat.leb (asize s) i then S i else asize s) /\ i < (if Nat.leb (asize s) i then S i else asize s)).
    { destruct (Nat.leb_spec (asize s) i); lia. }
    constructor; simpl; unfold sset; try apply I.
    + intros u. rewrite (bi_read _ I u). unfold upd. destruct (Nat.eqb_spec u t) as [->|N]; simpl; [now rewrite P|tauto].
    + intros u. rewrite (bi_write _ I u). unfold upd. destruct (Nat.eqb_spec u t) as [->|N]; simpl; [now rewrite P|tauto].
    + intros u j. rewrite (bi_slot _ I u). unfold upd. destruct (Nat.eqb_spec u t) as [->|N]; simpl; [now rewrite P|tauto].
    + intros u j c' l'.  unfold upd at 1 2. destruct (Nat.eqb_spec u t) as [->|N]; simpl.
      * rewrite T. intros [= <- <-] [= <-]. split; [exact DI|apply AM].
      * intros K1 K2. destruct (bi_size _ I u j c' l' K1 K2). specialize (DM (s_vec c')). split; [|lia].
        eapply Nat.lt_le_trans; [exact H|exact DM].
    + intros u. unfold upd. destruct (Nat.eqb_spec u t) as [->|]; [simpl; auto|apply I].
  - (* unlock unique *)
    injection H as <-. assert (W : writer s = Some t) by now apply WR. constructor; simpl; unfold sset; try apply I.
    + intros u. rewrite (bi_read _ I u). unfold upd. destruct (Nat.eqb_spec u t) as [->|N]; simpl; [now rewrite P|tauto].
    + intros u. unfold upd. destruct (Nat.eqb_spec u t) as [->|N]; simpl; [split; discriminate|]. rewrite <- (bi_write _ I u), W. split; congruence.
    + tauto.
    + intros u j. unfold upd. destruct (Nat.eqb_spec u t) as [->|N]; simpl; [rewrite (SL j); tauto|apply (bi_slot _ I)].
    + intros u j c' l'. unfold upd. destruct (Nat.eqb_spec u t) as [->|]; [simpl|apply (bi_size _ I)].
      rewrite T. intros [= <- <-] [= <-]. now apply SZ.
    + intros u. unfold upd. destruct (Nat.eqb_spec u t) as [->|]; [simpl; auto|apply I].
  - (* lock shared again *)
    destruct (writer s) eqn:W; [discriminate|]. injection H as <-. constructor; simpl; unfold sset; try apply I.
    + intros u. unfold upd. destruct (Nat.eqb_spec u t) as [->|N]; simpl; [tauto|]. rewrite (bi_read _ I u). intuition congruence.
    + intros u. unfold upd. destruct (Nat.eqb_spec u t) as [->|N]; simpl; [split; discriminate|]. rewrite <- (bi_write _ I u), W. tauto.
    + tauto.
    + intros u j. unfold upd. destruct (Nat.eqb_spec u t) as [->|N]; simpl; [rewrite (SL j); tauto|apply (bi_slot _ I)].
    + intros u j c' l'. unfold upd. destruct (Nat.eqb_spec u t) as [->|]; [simpl|apply (bi_size _ I)].
      rewrite T. intros [= <- <-] [= <-]. now apply SZ.
    + intros u. unfold upd. destruct (Nat.eqb_spec u t) as [->|]; [simpl; auto|apply I].
  - destruct (SZ i eq_refl) as [Z1 Z2]. destruct (Nat.leb_spec (asize s) i); [lia|].
    destruct (slock s i) eqn:K; [discriminate|]. injection H as <-. constructor; simpl; unfold sset; try apply I.
    + intros u. rewrite (bi_read _ I u). unfold upd. destruct (Nat.eqb_spec u t) as [->|N]; simpl; [now rewrite P|tauto].
    + intros u. rewrite (bi_write _ I u). unfold upd. destruct (Nat.eqb_spec u t) as [->|N]; simpl; [now rewrite P|tauto].
    + intros u j. unfold upd. destruct (Nat.eqb_spec j i) as [->|NJ], (Nat.eqb_spec u t) as [->|N]; simpl; try tauto.
      * split; [congruence|]. intros B. apply (bi_slot _ I) in B. congruence.
      * split; [intros B; apply SL in B; discriminate|congruence].
      * apply (bi_slot _ I).
    + intros u j c' l'. unfold upd. destruct (Nat.eqb_spec u t) as [->|]; [simpl|apply (bi_size _ I)].
      rewrite T. intros [= <- <-] [= <-]. auto.
    + intros u. unfold upd. destruct (Nat.eqb_spec u t) as [->|]; [simpl; auto|apply I].
  - destruct (SZ i eq_refl) as [Z1 Z2]. injection H as <-. constructor; simpl; unfold sset; try apply I.
    + intros u. rewrite (bi_read _ I u). unfold upd. destruct (Nat.eqb_spec u t) as [->|N]; simpl; [now rewrite P|tauto].
    + intros u. rewrite (bi_write _ I u). unfold upd. destruct (Nat.eqb_spec u t) as [->|N]; simpl; [now rewrite P|tauto].
    + intros u j. rewrite (bi_slot _ I u). unfold upd. destruct (Nat.eqb_spec u t) as [->|N]; simpl; [now rewrite P|tauto].
    + intros u j c' l'. unfold upd. destruct (Nat.eqb_spec u t) as [->|]; [simpl|apply (bi_size _ I)].
      rewrite T. intros [= <- <-] [= <-]. auto.
    + intros u. unfold upd. destruct (Nat.eqb_spec u t) as [->|]; [simpl; auto|apply I].
    + rewrite (bi_ub _ I). apply Nat.leb_gt in Z1. apply Nat.leb_gt in Z2. now rewrite Z1, Z2.
  - injection H as <-. constructor; simpl; try apply I.
    + intros u. rewrite In_drop. unfold upd. destruct (Nat.eqb_spec u t) as [->|N]; simpl; [intuition discriminate|]. rewrite (bi_read _ I u). tauto.
    + intros u. rewrite (bi_write _ I u). unfold upd. destruct (Nat.eqb_spec u t) as [->|N]; simpl; [now rewrite P|tauto].
    + intros W. rewrite (bi_excl _ I W). reflexivity.
    + intros u j. unfold upd. destruct (Nat.eqb_spec j i) as [->|NJ], (Nat.eqb_spec u t) as [->|N]; simpl.
      * split; discriminate.
      * split; [discriminate|]. intros B. apply (bi_slot _ I) in B. pose proof (proj2 (SL i) eq_refl). congruence.
      * split; [|discriminate]. intros B. apply SL in B. congruence.
      * apply (bi_slot _ I).
    + intros u j c' l'. unfold upd. destruct (Nat.eqb_spec u t) as [->|]; [simpl; discriminate|apply (bi_size _ I)].
    + intros u. unfold upd. destruct (Nat.eqb_spec u t) as [->|]; [simpl; tauto|apply I].
Qed.
Lemma binv_exec progs sched s : sexec sched (sinit progs) = Some s -> BInv s.
Proof. apply sexec_ind; [intros; eapply binv_step; eauto|apply binv_init]. Qed.

(** ** Results *)
Lemma Forall2_nth {A B} (R : A -> B -> Prop) l1 l2 : Forall2 R l1 l2 -> forall i a b,
  nth_error l1 i = Some a -> nth_error l2 i = Some b -> R a b.
Proof.
  induction 1; intros [|i] a b Ha Hb; simpl in *; try discriminate; [congruence|eauto].
Qed.
Lemma slot_of progs s t i c r : AInv progs s -> nth_error (nth t progs []) i = Some c ->
  nth_error (srets (sth s t)) i = Some r -> nget (v2s s) (s_sym c) = Some r.
Proof.
  intros I Hc Hr. destruct (ai_done _ _ I t) as (dn & D1 & D2). eapply (Forall2_nth _ _ _ D2); eauto.
  rewrite D1, nth_error_app1 in Hc; [assumption|]. assert (length dn = length (srets (sth s t))) as -> by (clear -D2; induction D2; simpl; congruence). apply nth_error_Some. congruence.
Qed.
Lemma c34_unique progs sched s : sexec sched (sinit progs) = Some s ->
  forall t1 i1 c1 r1 t2 i2 c2 r2,
    nth_error (nth t1 progs []) i1 = Some c1 -> nth_error (srets (sth s t1)) i1 = Some r1 ->
    nth_error (nth t2 progs []) i2 = Some c2 -> nth_error (srets (sth s t2)) i2 = Some r2 ->
    (r1 = r2 <-> s_sym c1 = s_sym c2).
Proof.
  intros E t1 i1 c1 r1 t2 i2 c2 r2 H1 H2 H3 H4. pose proof (ainv_exec _ _ _ E) as I.
  pose proof (slot_of _ _ _ _ _ _ I H1 H2) as A. pose proof (slot_of _ _ _ _ _ _ I H3 H4) as B. split.
  - intros <-. apply nget_In in A, B. exact (snd_inj _ (ai_vals _ _ I) _ _ _ A B).
  - intros EQ. congruence.
Qed.
Lemma c34_reverse progs sched s : sexec sched (sinit progs) = Some s -> (forall t, stodo (sth s t) = []) ->
  forall i x, nget (s2v s) i = Some x <-> nget (v2s s) x = Some i.
Proof.
  intros E F i x. pose proof (ainv_exec _ _ _ E) as I. split; intros H.
  - apply nget_In in H. now apply (ai_rev _ _ I).
  - destruct (ai_rev2 _ _ I _ _ H) as [K|(t & c & l & K & _)]; [|rewrite F in K; discriminate].
    apply In_nget; [apply I|assumption].
Qed.
Lemma c34_exclusive progs sched s : sexec sched (sinit progs) = Some s ->
  forall t u i, inslot (spcof (sth s t)) = Some i -> inslot (spcof (sth s u)) = Some i -> t = u.
Proof.
  intros E t u i H1 H2. pose proof (binv_exec _ _ _ E) as I. apply (bi_slot _ I) in H1, H2. congruence.
Qed.
Lemma c34_progress progs sched s : sexec sched (sinit progs) = Some s ->
  (exists t, stodo (sth s t) <> []) -> exists t s', sstep t s = Some s'.
Proof.
  intros E (t & T). pose proof (binv_exec _ _ _ E) as I.
  (* a thread inside a slot, a writer, or a thread about to check can always move *)
  assert (IN : forall u i, inslot (spcof (sth s u)) = Some i -> exists t s', sstep t s = Some s').
  { intros u i H. exists u. unfold sstep. pose proof (bi_busy _ I u). destruct (stodo (sth s u)).
    - exfalso. apply H0; [|reflexivity]. intros P. rewrite P in H. discriminate.
    - destruct (spcof (sth s u)); try discriminate; eauto. }
  assert (WR : forall u, writes (spcof (sth s u)) = true -> exists t s', sstep t s = Some s').
  { intros u H. exists u. unfold sstep. pose proof (bi_busy _ I u). destruct (stodo (sth s u)).
    - exfalso. apply H0; [|reflexivity]. intros P. rewrite P in H. discriminate.
    - destruct (spcof (sth s u)); try discriminate; eauto. }
  assert (RD : forall u, reads (spcof (sth s u)) = true -> exists t s', sstep t s = Some s').
  { intros u H. pose proof (bi_busy _ I u) as B. destruct (spcof (sth s u)) eqn:P; try discriminate; try (eapply IN; rewrite P; reflexivity).
    - exists u. unfold sstep. rewrite P. destruct (stodo (sth s u)); [exfalso; apply B; auto; discriminate|]. destruct (_ || _); eauto.
    - destruct (slock s i) as [w|] eqn:K.
      + apply (bi_slot _ I) in K. eapply IN; eauto.
      + exists u. unfold sstep. rewrite P. destruct (stodo (sth s u)); [exfalso; apply B; auto; discriminate|].
        rewrite K. destruct (Nat.leb _ _); eauto. }
  destruct (writer s) as [w|] eqn:W; [apply (WR w), (bi_write _ I), W|].
  destruct (readers s) as [|w r] eqn:R.
  2:{ apply (RD w), (bi_read _ I). rewrite R. now left. }
  destruct (spcof (sth s t)) eqn:P;
    try (apply (RD t); rewrite P; reflexivity); try (apply (WR t); rewrite P; reflexivity);
    exists t; unfold sstep; rewrite P; destruct (stodo (sth s t)); try tauto; rewrite ?W, ?R; try (destruct (nget _ _)); eauto.
Qed.
