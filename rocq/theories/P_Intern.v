(** Proofs about the interning tables. *)
From Verif Require Import Base M_Netlist M_Intern S_Intern.

Section Proofs.
Context {Rec : Type} (key : Rec -> str).
Notation state := (istate Rec).

Fixpoint mk (n : nat) (l : list Rec) : list (str * nat) :=
  match l with [] => [] | r :: l' => (key r, n) :: mk (S n) l' end.
Lemma mk_get l : forall n k, map_get (mk n l) k = option_map (Nat.add n) (pos key l k).
Proof.
  induction l as [|r l IH]; intros n k; simpl; [reflexivity|].
  destruct (str_eqb (key r) k); simpl; [now rewrite Nat.add_0_r|]. rewrite IH.
  destruct (pos key l k); simpl; [now rewrite Nat.add_succ_r|reflexivity].
Qed.
Lemma mk_get0 l k : map_get (mk 0 l) k = pos key l k.
Proof. rewrite mk_get. now destruct (pos key l k). Qed.
Lemma mk_snoc l : forall n r, mk n (l ++ [r]) = mk n l ++ [(key r, n + length l)].
Proof.
  induction l as [|x l IH]; intros n r; simpl; [now rewrite Nat.add_0_r|].
  rewrite IH. now rewrite Nat.add_succ_r.
Qed.
Lemma pos_some l k i : pos key l k = Some i -> exists r, nth_error l i = Some r /\ key r = k.
Proof.
  revert i. induction l as [|r l IH]; intros i H; simpl in H; [discriminate|].
  destruct (str_eqb (key r) k) eqn:E.
  - injection H as <-. exists r. split; [reflexivity|]. now apply str_eqb_eq.
  - destruct (pos key l k); [|discriminate]. injection H as <-. destruct (IH n eq_refl) as (x & H1 & H2). now exists x.
Qed.
Lemma pos_none l k : pos key l k = None <-> ~ In k (map key l).
Proof.
  induction l as [|r l IH]; simpl; [tauto|]. destruct (str_eqb (key r) k) eqn:E.
  - apply str_eqb_eq in E. split; [discriminate|tauto].
  - assert (key r <> k) by (rewrite <- str_eqb_eq; congruence).
    destruct (pos key l k); simpl; split; intros H0; try discriminate; try tauto.
    exfalso. destruct IH as [_ IH]. discriminate (IH (fun x => H0 (or_intror x))).
Qed.
Lemma seq_run_snoc rs : forall l r l1 is, seq_run key l rs = (l1, is) ->
  seq_run key l (rs ++ [r]) = (fst (seq_intern key l1 r), is ++ [snd (seq_intern key l1 r)]).
Proof.
  induction rs as [|x rs IH]; intros l r l1 is H; simpl in *.
  - injection H as <- <-. destruct (seq_intern key l r). reflexivity.
  - destruct (seq_intern key l x) as [l2 i]. destruct (seq_run key l2 rs) as [l3 js] eqn:E.
    injection H as <- <-. rewrite (IH _ r _ _ E). reflexivity.
Qed.

(** Facts of the sequential specification. *)
Lemma seq_spec rs : forall l l1 is, NoDup (map key l) -> seq_run key l rs = (l1, is) ->
  NoDup (map key l1) /\ (exists x, l1 = l ++ x) /\ length is = length rs /\
  forall i r j, nth_error rs i = Some r -> nth_error is i = Some j ->
    exists r', nth_error l1 j = Some r' /\ key r' = key r.
Proof.
  induction rs as [|x rs IH]; intros l l1 is ND H; simpl in H.
  - injection H as <- <-. split; [assumption|]. split; [exists []; now rewrite app_nil_r|]. split; [reflexivity|].
    intros [|i] r j Hi; discriminate.
  - destruct (seq_intern key l x) as [l2 i0] eqn:E0. destruct (seq_run key l2 rs) as [l3 js] eqn:E.
    injection H as <- <-. unfold seq_intern in E0.
    assert (A : NoDup (map key l2) /\ (exists y, l2 = l ++ y) /\ exists r', nth_error l2 i0 = Some r' /\ key r' = key x).
    { destruct (pos key l (key x)) as [p|] eqn:P; injection E0 as <- <-.
      - split; [assumption|]. split; [exists []; now rewrite app_nil_r|]. now apply pos_some.
      - split.
        + rewrite map_app. apply NoDup_app_intro; auto; [constructor; [easy|constructor]|].
          intros y H1 [<-|[]]. apply pos_none in P. auto.
        + split; [now exists [x]|]. exists x. split; [|reflexivity].
          rewrite nth_error_app2, Nat.sub_diag by lia. reflexivity. }
    destruct A as (A1 & (y & A2) & r0 & A3 & A4). destruct (IH _ _ _ A1 E) as (B1 & (z & B2) & B3 & B4).
    split; [assumption|]. split; [exists (y ++ z); rewrite B2, A2; now rewrite app_assoc|]. split; [simpl; now rewrite B3|].
    intros [|i] r j Hi Hj; simpl in Hi, Hj; [|eapply B4; eauto].
    injection Hi as <-. injection Hj as <-. exists r0. split; [|assumption]. rewrite B2, nth_error_app1; [assumption|].
    apply nth_error_Some. congruence.
Qed.

(** ** Invariant *)
Definition locked (p : ipc) : bool := match p with IIdle | IMiss1 => false | _ => true end.
Definition have (p : ipc) : list nat := match p with IHave i => [i] | _ => [] end.
Definition rest (x : ithread Rec) : list Rec := match ipcof x with IHave _ => tl (itodo x) | _ => itodo x end.
Definition stored (s : state) : list Rec :=
  match imutex s with
  | Some t => match ipcof (ith s t), itodo (ith s t) with IStored _, r :: _ => [r] | _, _ => [] end
  | None => []
  end.
Record IInv (progs : list (list Rec)) (s : state) (h : ihist Rec) (L : list Rec) : Prop := {
  iv_pend : entries s = L ++ stored s;
  iv_map : imap s = mk 0 L;
  iv_seq : seq_run key [] (map ih_arg h) = (L, map snd h);
  iv_lock : forall t, locked (ipcof (ith s t)) = true <-> imutex s = Some t;
  iv_busy : forall t, ipcof (ith s t) <> IIdle -> itodo (ith s t) <> [];
  iv_miss : forall t r l, itodo (ith s t) = r :: l ->
    (ipcof (ith s t) = IMiss2 \/ exists i, ipcof (ith s t) = IStored i) -> pos key L (key r) = None;
  iv_stored : forall t i, ipcof (ith s t) = IStored i -> i = length L;
  iv_prog : forall t, map ih_arg (ih_of h t) ++ rest (ith s t) = nth t progs [];
  iv_rets : forall t, map snd (ih_of h t) = irets (ith s t) ++ have (ipcof (ith s t)) }.

Lemma iinv_init progs : IInv progs (iinit progs) [] [].
Proof.
  constructor; simpl; auto; try easy.
Qed.

Lemma ih_of_snoc (h : ihist Rec) x t : ih_of (h ++ [x]) t = ih_of h t ++ (if Nat.eqb (fst (fst x)) t then [x] else []).
Proof. unfold ih_of. rewrite filter_app'. simpl. now destruct (Nat.eqb _ _). Qed.

Ltac split_thread u t := destruct (Nat.eq_dec u t) as [->|?NE];
  [rewrite ?upd_same in *|rewrite ?upd_other in * by assumption].

(** A step that neither returns nor logs a call. *)
Lemma silent progs s h L t p m :
  IInv progs s h L ->
  (forall u, u <> t -> imutex s = Some u <-> m = Some u) -> (locked p = true <-> m = Some t) ->
  p <> IIdle -> itodo (ith s t) <> [] -> have p = have (ipcof (ith s t)) ->
  have p = [] ->
  (forall i, p <> IStored i) ->
  (p = IMiss2 -> forall r l, itodo (ith s t) = r :: l -> pos key L (key r) = None) ->
  (stored s = []) ->
  IInv progs (IState (entries s) (imap s) m (upd (ith s) t (IThread p (itodo (ith s t)) (irets (ith s t))))) h L.
Proof.
  intros I LU LT NI TD HP HV NS MS ST. constructor; simpl.
  - rewrite (iv_pend _ _ _ _ I), ST. f_equal. unfold stored. simpl. destruct m as [u|]; [|reflexivity].
    split_thread u t; simpl.
    + destruct p; try reflexivity. destruct (NS i); auto.
    + pose proof (proj2 (LU u NE) eq_refl) as MU. unfold stored in ST. rewrite MU in ST. now rewrite ST.
  - apply I.
  - apply I.
  - intros u. split_thread u t; simpl; [assumption|]. rewrite (iv_lock _ _ _ _ I u). now apply LU.
  - intros u. split_thread u t; simpl; [auto|]. apply I.
  - intros u r l. split_thread u t; simpl; [|apply (iv_miss _ _ _ _ I)]. intros T [H|[i H]]; [eauto|destruct (NS i); auto].
  - intros u i. split_thread u t; simpl; [|apply (iv_stored _ _ _ _ I)]. intros H. destruct (NS i); auto.
  - intros u. rewrite <- (iv_prog _ _ _ _ I u). split_thread u t; [|reflexivity]. f_equal. unfold rest. simpl.
    destruct p; simpl in HV; try discriminate; destruct (ipcof (ith s t)); simpl in HP; try discriminate; reflexivity.
  - intros u. rewrite (iv_rets _ _ _ _ I u). split_thread u t; [|reflexivity]. simpl. now rewrite HP.
Qed.

Lemma stored_nil s t : (forall i, ipcof (ith s t) <> IStored i) -> imutex s = Some t -> stored s = [].
Proof. intros N M. unfold stored. rewrite M. destruct (ipcof (ith s t)); auto. destruct (N i); auto. Qed.

Lemma iinv_step progs s s' t h L : IInv progs s h L -> istep key t s = Some s' ->
  exists h' L', IInv progs s' (h ++ h') (L ++ L') /\ length h' <= 1.
Proof.
  intros I H. unfold istep in H. destruct (itodo (ith s t)) as [|r l] eqn:T; [discriminate|].
  destruct (ipcof (ith s t)) eqn:P.
  - destruct (map_get (imap s) (key r)) as [i|] eqn:G; injection H as <-.
    + (* fast path *)
      rewrite (iv_map _ _ _ _ I), mk_get0 in G. exists [(t, r, i)], []. rewrite app_nil_r. split; [|simpl; lia].
      assert (NL : imutex s <> Some t) by (rewrite <- (iv_lock _ _ _ _ I t), P; discriminate).
      constructor; unfold iret; simpl.
      * rewrite (iv_pend _ _ _ _ I). f_equal. unfold stored. simpl. destruct (imutex s) as [u|]; [|reflexivity].
        rewrite upd_other by congruence. reflexivity.
      * apply I.
      * rewrite map_app. simpl map at 2. erewrite seq_run_snoc; [|apply (iv_seq _ _ _ _ I)].
        cbn [ih_arg fst snd]. unfold seq_intern. rewrite G. simpl. now rewrite map_app.
      * intros u. rewrite <- (iv_lock _ _ _ _ I u). split_thread u t; simpl; [|tauto]. rewrite P. tauto.
      * intros u. split_thread u t; simpl; [tauto|]. apply I.
      * intros u r0 l0. split_thread u t; simpl; [|apply (iv_miss _ _ _ _ I)]. intros _ [H|[j H]]; discriminate.
      * intros u j. split_thread u t; simpl; [discriminate|]. apply (iv_stored _ _ _ _ I).
      * intros u. rewrite <- (iv_prog _ _ _ _ I u), ih_of_snoc. simpl. destruct (Nat.eqb_spec t u) as [->|N].
        -- rewrite upd_same, map_app, <- app_assoc. unfold rest at 2. rewrite P. unfold rest. simpl. now rewrite T.
        -- rewrite upd_other by auto. now rewrite app_nil_r.
      * intros u. rewrite ih_of_snoc. simpl. destruct (Nat.eqb_spec t u) as [->|N].
        -- rewrite upd_same, map_app, (iv_rets _ _ _ _ I u), P. simpl. now rewrite !app_nil_r.
        -- rewrite upd_other by auto. rewrite app_nil_r. apply (iv_rets _ _ _ _ I).
    + exists [], []. rewrite !app_nil_r. split; [|simpl; lia]. unfold igo. 
      assert (NL : imutex s <> Some t) by (rewrite <- (iv_lock _ _ _ _ I t), P; discriminate).
      (* stored may be non-empty: another thread holds the mutex *)
      constructor; simpl.
      * rewrite (iv_pend _ _ _ _ I). f_equal. unfold stored. simpl. destruct (imutex s) as [u|]; [|reflexivity].
        rewrite upd_other by congruence. reflexivity.
      * apply I.
      * apply I.
      * intros u. rewrite <- (iv_lock _ _ _ _ I u). split_thread u t; simpl; [|tauto]. rewrite P. tauto.
      * intros u. split_thread u t; simpl; [rewrite T; discriminate|]. apply I.
      * intros u r0 l0. split_thread u t; simpl; [|apply (iv_miss _ _ _ _ I)]. intros _ [H|[j H]]; discriminate.
      * intros u j. split_thread u t; simpl; [discriminate|]. apply (iv_stored _ _ _ _ I).
      * intros u. rewrite <- (iv_prog _ _ _ _ I u). split_thread u t; [|reflexivity]. unfold rest. simpl. now rewrite P.
      * intros u. rewrite (iv_rets _ _ _ _ I u). split_thread u t; [|reflexivity]. simpl. now rewrite P.
  - destruct (imutex s) eqn:M; [discriminate|]. injection H as <-. exists [], []. rewrite !app_nil_r. split; [|simpl; lia].
    unfold igo. simpl. apply (silent progs s h L t ILock (Some t)); auto; try discriminate.
    + intros u N. rewrite M. split; [discriminate|congruence].
    + simpl. tauto.
    + rewrite T. discriminate.
    + now rewrite P.
    + unfold stored. now rewrite M.
  - assert (M : imutex s = Some t) by (apply (iv_lock _ _ _ _ I); now rewrite P).
    assert (ST : stored s = []) by (apply (stored_nil s t); [rewrite P; discriminate|assumption]).
    destruct (map_get (imap s) (key r)) as [i|] eqn:G; injection H as <-.
    + (* second visit finds the key *)
      rewrite (iv_map _ _ _ _ I), mk_get0 in G. exists [(t, r, i)], []. rewrite app_nil_r. split; [|simpl; lia].
      constructor; unfold igo; simpl.
      * rewrite (iv_pend _ _ _ _ I), ST. f_equal. unfold stored. simpl. rewrite M, upd_same. reflexivity.
      * apply I.
      * rewrite map_app. simpl map at 2. erewrite seq_run_snoc; [|apply (iv_seq _ _ _ _ I)].
        cbn [ih_arg fst snd]. unfold seq_intern. rewrite G. simpl. now rewrite map_app.
      * intros u. rewrite <- (iv_lock _ _ _ _ I u). split_thread u t; simpl; [|tauto]. rewrite P. tauto.
      * intros u. split_thread u t; simpl; [rewrite T; discriminate|]. apply I.
      * intros u r0 l0. split_thread u t; simpl; [|apply (iv_miss _ _ _ _ I)]. intros _ [H|[j H]]; discriminate.
      * intros u j. split_thread u t; simpl; [discriminate|]. apply (iv_stored _ _ _ _ I).
      * intros u. rewrite <- (iv_prog _ _ _ _ I u), ih_of_snoc. simpl. destruct (Nat.eqb_spec t u) as [->|N].
        -- rewrite upd_same, map_app, <- app_assoc. unfold rest at 2. rewrite P. unfold rest. simpl. now rewrite T.
        -- rewrite upd_other by auto. now rewrite app_nil_r.
      * intros u. rewrite ih_of_snoc. simpl. destruct (Nat.eqb_spec t u) as [->|N].
        -- rewrite upd_same, map_app, (iv_rets _ _ _ _ I u), P. simpl. now rewrite !app_nil_r.
        -- rewrite upd_other by auto. rewrite app_nil_r. apply (iv_rets _ _ _ _ I).
    + rewrite (iv_map _ _ _ _ I), mk_get0 in G. exists [], []. rewrite !app_nil_r. split; [|simpl; lia].
      unfold igo. apply (silent progs s h L t IMiss2 (imutex s)); auto; try discriminate.
      * tauto.
      * rewrite M. simpl. tauto.
      * rewrite T. discriminate.
      * now rewrite P.
      * intros _ r0 l0. rewrite T. intros [= <- <-]. exact G.
  - (* store *)
    assert (M : imutex s = Some t) by (apply (iv_lock _ _ _ _ I); now rewrite P).
    assert (ST : stored s = []) by (apply (stored_nil s t); [rewrite P; discriminate|assumption]).
    assert (EL : entries s = L) by (rewrite (iv_pend _ _ _ _ I), ST; apply app_nil_r).
    injection H as <-. exists [], []. rewrite !app_nil_r. split; [|simpl; lia].
    pose proof (iv_miss _ _ _ _ I t r l T (or_introl P)) as MS. constructor; unfold igo; simpl.
    + rewrite EL. f_equal. unfold stored. simpl. rewrite M, upd_same. simpl. now rewrite T.
    + apply I.
    + apply I.
    + intros u. rewrite <- (iv_lock _ _ _ _ I u). split_thread u t; simpl; [|tauto]. rewrite P. tauto.
    + intros u. split_thread u t; simpl; [rewrite T; discriminate|]. apply I.
    + intros u r0 l0. split_thread u t; simpl; [|apply (iv_miss _ _ _ _ I)]. rewrite T. intros [= <- <-] _. exact MS.
    + intros u j. split_thread u t; simpl; [|apply (iv_stored _ _ _ _ I)]. rewrite EL. congruence.
    + intros u. rewrite <- (iv_prog _ _ _ _ I u). split_thread u t; [|reflexivity]. unfold rest. simpl. now rewrite P.
    + intros u. rewrite (iv_rets _ _ _ _ I u). split_thread u t; [|reflexivity]. simpl. now rewrite P.
  - (* publish *)
    assert (M : imutex s = Some t) by (apply (iv_lock _ _ _ _ I); now rewrite P).
    pose proof (iv_stored _ _ _ _ I t i P) as ->.
    pose proof (iv_miss _ _ _ _ I t r l T (or_intror (ex_intro _ _ P))) as MS.
    injection H as <-. exists [(t, r, length L)], [r]. split; [|simpl; lia].
    assert (OTH : forall u, u <> t -> locked (ipcof (ith s u)) = false).
    { intros u N. destruct (locked (ipcof (ith s u))) eqn:E; [|reflexivity]. apply (iv_lock _ _ _ _ I) in E. congruence. }
    constructor; unfold igo; simpl.
    + rewrite (iv_pend _ _ _ _ I), <- app_assoc. f_equal. unfold stored. simpl. rewrite M, upd_same, P, T. reflexivity.
    + unfold map_emplace. rewrite (iv_map _ _ _ _ I), mk_get0, MS, mk_snoc. reflexivity.
    + rewrite map_app. simpl map at 2. erewrite seq_run_snoc; [|apply (iv_seq _ _ _ _ I)].
      cbn [ih_arg fst snd]. unfold seq_intern. rewrite MS. simpl. now rewrite map_app.
    + intros u. rewrite <- (iv_lock _ _ _ _ I u). split_thread u t; simpl; [|tauto]. rewrite P. tauto.
    + intros u. split_thread u t; simpl; [rewrite T; discriminate|]. apply I.
    + intros u r0 l0. split_thread u t; simpl; [intros _ [H|[j H]]; discriminate|].
      intros _ [H|[j H]]; specialize (OTH u NE); rewrite H in OTH; discriminate.
    + intros u j. split_thread u t; simpl; [discriminate|]. intros H. specialize (OTH u NE). rewrite H in OTH. discriminate.
    + intros u. rewrite <- (iv_prog _ _ _ _ I u), ih_of_snoc. simpl. destruct (Nat.eqb_spec t u) as [->|N].
      * rewrite upd_same, map_app, <- app_assoc. unfold rest at 2. rewrite P. unfold rest. simpl. now rewrite T.
      * rewrite upd_other by auto. now rewrite app_nil_r.
    + intros u. rewrite ih_of_snoc. simpl. destruct (Nat.eqb_spec t u) as [->|N].
      * rewrite upd_same, map_app, (iv_rets _ _ _ _ I u), P. simpl. now rewrite !app_nil_r.
      * rewrite upd_other by auto. rewrite app_nil_r. apply (iv_rets _ _ _ _ I).
  - (* return *)
    assert (M : imutex s = Some t) by (apply (iv_lock _ _ _ _ I); now rewrite P).
    assert (ST : stored s = []) by (apply (stored_nil s t); [rewrite P; discriminate|assumption]).
    injection H as <-. exists [], []. rewrite !app_nil_r. split; [|simpl; lia]. constructor; unfold iret; simpl.
    + rewrite (iv_pend _ _ _ _ I), ST. reflexivity.
    + apply I.
    + apply I.
    + intros u. split_thread u t; simpl; [split; discriminate|]. rewrite (iv_lock _ _ _ _ I u), M. split; congruence.
    + intros u. split_thread u t; simpl; [tauto|]. apply I.
    + intros u r0 l0. split_thread u t; simpl; [|apply (iv_miss _ _ _ _ I)]. intros _ [H|[j H]]; discriminate.
    + intros u j. split_thread u t; simpl; [discriminate|]. apply (iv_stored _ _ _ _ I).
    + intros u. rewrite <- (iv_prog _ _ _ _ I u). split_thread u t; [|reflexivity]. unfold rest. simpl. now rewrite P.
    + intros u. rewrite (iv_rets _ _ _ _ I u). split_thread u t; [|reflexivity]. simpl. rewrite P. simpl. now rewrite app_nil_r.
Qed.

Lemma iinv_exec progs : forall sched s s' h L, IInv progs s h L -> iexec key sched s = Some s' ->
  exists h' L', IInv progs s' (h ++ h') (L ++ L').
Proof.
  induction sched as [|t r IH]; intros s s' h L I E; simpl in E.
  - injection E as <-. exists [], []. now rewrite !app_nil_r.
  - destruct (istep key t s) as [s1|] eqn:S; [|discriminate].
    destruct (iinv_step _ _ _ _ _ _ I S) as (h1 & L1 & I1 & _). destruct (IH _ _ _ _ I1 E) as (h2 & L2 & I2).
    exists (h1 ++ h2), (L1 ++ L2). now rewrite !app_assoc.
Qed.

(** Entries are never duplicated, and every completed call got the index of a record with its key. *)
Lemma intern_safe progs sched s : iexec key sched (iinit progs) = Some s ->
  NoDup (map key (entries s)) /\
  forall t i r j, nth_error (nth t progs []) i = Some r -> nth_error (irets (ith s t)) i = Some j ->
    exists r', nth_error (entries s) j = Some r' /\ key r' = key r.
Proof.
  intros E. destruct (iinv_exec progs sched _ _ _ _ (iinv_init progs) E) as (h & L & I). simpl in I.
  destruct (seq_spec _ [] _ _ (NoDup_nil _) (iv_seq _ _ _ _ I)) as (ND & _ & LN & SP).
  split.
  - rewrite (iv_pend _ _ _ _ I), map_app. apply NoDup_app_intro; auto.
    + unfold stored. destruct (imutex s) as [t|]; [|constructor]. destruct (ipcof (ith s t)), (itodo (ith s t)); simpl; repeat constructor; easy.
    + intros x H1 H2. unfold stored in H2. destruct (imutex s) as [t|]; [|destruct H2].
      destruct (ipcof (ith s t)) eqn:P, (itodo (ith s t)) as [|r l] eqn:T; simpl in H2; try tauto.
      destruct H2 as [<-|[]]. pose proof (iv_miss _ _ _ _ I t r l T (or_intror (ex_intro _ _ P))) as MS.
      apply pos_none in MS. auto.
  - intros t i r j Hr Hj. pose proof (iv_prog _ _ _ _ I t) as PR. pose proof (iv_rets _ _ _ _ I t) as RT.
    assert (Hj' : nth_error (map snd (ih_of h t)) i = Some j).
    { rewrite RT. rewrite nth_error_app1; [assumption|]. apply nth_error_Some. congruence. }
    rewrite nth_error_map in Hj'. destruct (nth_error (ih_of h t) i) as [x|] eqn:X; [|discriminate]. injection Hj' as <-.
    assert (Hr' : nth_error (map ih_arg (ih_of h t)) i = Some r).
    { rewrite <- PR in Hr. rewrite nth_error_app1 in Hr; [assumption|]. rewrite map_length. apply nth_error_Some. congruence. }
    rewrite nth_error_map, X in Hr'. injection Hr' as <-.
    apply nth_error_In in X. unfold ih_of in X. apply filter_In in X. destruct X as [X _].
    apply In_nth_error in X. destruct X as [k X].
    destruct (SP k (ih_arg x) (snd x)) as (r' & H1 & H2).
    { now rewrite nth_error_map, X. } { now rewrite nth_error_map, X. }
    exists r'. split; [|assumption]. rewrite (iv_pend _ _ _ _ I), nth_error_app1; [assumption|]. apply nth_error_Some. congruence.
Qed.

(** Storage only grows. *)
Lemma entries_grow sched : forall s s', iexec key sched s = Some s' -> exists x, entries s' = entries s ++ x.
Proof.
  induction sched as [|t r IH]; intros s s' E; simpl in E.
  - injection E as <-. exists []. now rewrite app_nil_r.
  - destruct (istep key t s) as [s1|] eqn:S; [|discriminate]. destruct (IH _ _ E) as [x X].
    assert (exists y, entries s1 = entries s ++ y) as [y Y].
    { unfold istep in S. destruct (itodo (ith s t)) as [|r0 l]; [discriminate|].
      destruct (ipcof (ith s t)); repeat match type of S with
        | context [match map_get ?a ?b with _ => _ end] => destruct (map_get a b)
        | context [match imutex s with _ => _ end] => destruct (imutex s) end; try discriminate; injection S as <-; simpl;
        try (exists []; now rewrite app_nil_r). now exists [r0]. }
    exists (y ++ x). rewrite X, Y. now rewrite app_assoc.
Qed.
Lemma entries_stable s1 s2 progs st1 st2 : iexec key s1 (iinit progs) = Some st1 -> iexec key s2 st1 = Some st2 ->
  forall i r, nth_error (entries st1) i = Some r -> nth_error (entries st2) i = Some r.
Proof.
  intros _ E i r H. destruct (entries_grow _ _ _ E) as [x ->]. rewrite nth_error_app1; [assumption|].
  apply nth_error_Some. congruence.
Qed.

Lemma ifinished_pc progs s h L t : IInv progs s h L -> itodo (ith s t) = [] -> ipcof (ith s t) = IIdle.
Proof. intros I T. destruct (ipcof (ith s t)) eqn:P; auto; exfalso; apply (iv_busy _ _ _ _ I t); auto; rewrite P; discriminate. Qed.

(** Linearizability. *)
Lemma intern_linearizable progs sched s : iexec key sched (iinit progs) = Some s -> IFinished s ->
  exists h, (forall t, map ih_arg (ih_of h t) = nth t progs [] /\ map snd (ih_of h t) = irets (ith s t)) /\
    seq_run key [] (map ih_arg h) = (entries s, map snd h).
Proof.
  intros E F. destruct (iinv_exec progs sched _ _ _ _ (iinv_init progs) E) as (h & L & I). simpl in I.
  exists h. split.
  - intros t. pose proof (iv_prog _ _ _ _ I t) as A. pose proof (iv_rets _ _ _ _ I t) as B.
    unfold rest in A. rewrite (ifinished_pc _ _ _ _ t I (F t)) in A, B. rewrite (F t), app_nil_r in A.
    simpl in B. rewrite app_nil_r in B. auto.
  - rewrite (iv_pend _ _ _ _ I). assert (stored s = []) as ->.
    { unfold stored. destruct (imutex s) as [t|]; [|reflexivity]. rewrite (F t). now destruct (ipcof (ith s t)). }
    rewrite app_nil_r. apply I.
Qed.
(** Real time: the history of a prefix of the run is a prefix of the history and already
    holds every returned call. *)
Lemma intern_realtime progs s1 s2 st1 st2 : iexec key s1 (iinit progs) = Some st1 -> iexec key s2 st1 = Some st2 ->
  IFinished st2 ->
  exists h1 h2, seq_run key [] (map ih_arg (h1 ++ h2)) = (entries st2, map snd (h1 ++ h2)) /\
    (forall t, map ih_arg (ih_of (h1 ++ h2) t) = nth t progs [] /\ map snd (ih_of (h1 ++ h2) t) = irets (ith st2 t)) /\
    forall t, exists o, map snd (ih_of h1 t) = irets (ith st1 t) ++ o /\ length o <= 1.
Proof.
  intros E1 E2 F. destruct (iinv_exec progs s1 _ _ _ _ (iinv_init progs) E1) as (h & L & I). simpl in I.
  destruct (iinv_exec progs s2 _ _ _ _ I E2) as (h2 & L2 & I2). exists h, h2. split; [|split].
  - rewrite (iv_pend _ _ _ _ I2). assert (stored st2 = []) as ->.
    { unfold stored. destruct (imutex st2) as [t|]; [|reflexivity]. rewrite (F t). now destruct (ipcof (ith st2 t)). }
    rewrite app_nil_r. apply I2.
  - intros t. pose proof (iv_prog _ _ _ _ I2 t) as A. pose proof (iv_rets _ _ _ _ I2 t) as B.
    unfold rest in A. rewrite (ifinished_pc _ _ _ _ t I2 (F t)) in A, B. rewrite (F t), app_nil_r in A.
    simpl in B. rewrite app_nil_r in B. auto.
  - intros t. exists (have (ipcof (ith st1 t))). split; [apply (iv_rets _ _ _ _ I)|]. destruct (ipcof (ith st1 t)); simpl; lia.
Qed.

(** Progress: while a call is unfinished some thread can step. *)
Lemma intern_progress progs sched s : iexec key sched (iinit progs) = Some s ->
  (exists t, itodo (ith s t) <> []) -> exists t s', istep key t s = Some s'.
Proof.
  intros E (t & T). destruct (iinv_exec progs sched _ _ _ _ (iinv_init progs) E) as (h & L & I). simpl in I.
  assert (K : forall u, itodo (ith s u) <> [] -> (ipcof (ith s u) = IMiss1 -> imutex s = None) -> exists s', istep key u s = Some s').
  { intros u TU HB. unfold istep. destruct (itodo (ith s u)) as [|r l]; [tauto|].
    destruct (ipcof (ith s u)); try (destruct (map_get _ _)); eauto. rewrite HB by reflexivity. eauto. }
  destruct (imutex s) as [u|] eqn:M.
  - exists u. pose proof (proj2 (iv_lock _ _ _ _ I u) M) as LU. apply K.
    + apply (iv_busy _ _ _ _ I). intros P. rewrite P in LU. discriminate.
    + intros P. rewrite P in LU. discriminate.
  - exists t. now apply K.
Qed.
End Proofs.
