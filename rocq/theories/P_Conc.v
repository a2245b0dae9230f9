(** Proofs about concurrent edge insertion. *)
From Verif Require Import Base M_Graph S_Graph P_Graph M_Conc S_Conc.

(** ** Lock ownership *)
Definition holds (x : thread) : list nat :=
  match todo x with
  | [] => []
  | c :: _ => match tpc x with
              | PIdle | PNewWantB _ => []
              | PLocked | PMiss | PRet _ | PWantB _ | PNewLocked | PNewRelA _ => [c_src c]
              | PHasB _ | PRelB _ => [c_src c; c_tgt c]
              | PNewHasB _ | PNewRelB _ => [c_tgt c]
              end
  end.

(** Edge carried by a pc after its linearisation point; edge pushed at the source only. *)
Definition lin (p : pc) : option edge :=
  match p with
  | PIdle | PLocked | PMiss | PNewLocked => None
  | PRet e | PWantB e | PHasB e | PRelB e | PNewRelA e | PNewWantB e | PNewHasB e | PNewRelB e => Some e
  end.
Definition pend (p : pc) : option edge :=
  match p with
  | PWantB e | PHasB e | PNewRelA e | PNewWantB e | PNewHasB e => Some e
  | _ => None
  end.
Definition olist {A} (o : option A) : list A := match o with Some x => [x] | None => [] end.

Definition is_new (p : pc) : bool :=
  match p with PNewLocked | PNewRelA _ | PNewWantB _ | PNewHasB _ | PNewRelB _ => true | _ => false end.
Definition is_add (p : pc) : bool :=
  match p with PLocked | PMiss | PWantB _ | PHasB _ | PRelB _ => true | _ => false end.

Record TInv (s : cstate) (t : nat) : Prop := {
  ti_busy : tpc (th s t) <> PIdle -> todo (th s t) <> [];
  ti_hold : forall n, lk s n = Some t <-> In n (holds (th s t));
  ti_ends : forall c r e, todo (th s t) = c :: r ->
    (pend (tpc (th s t)) = Some e \/ tpc (th s t) = PRelB e \/ tpc (th s t) = PNewRelB e) ->
    esrc e = c_src c /\ etgt e = c_tgt c /\ c_src c <> c_tgt c;
  ti_miss : forall c r, todo (th s t) = c :: r -> tpc (th s t) = PMiss ->
    lookupOutEdge (nst (cg s) (c_src c)) (c_tgt c) = None;
  ti_new : forall c r, todo (th s t) = c :: r -> is_new (tpc (th s t)) = true -> exists a b, c = CNew a b;
  ti_add : forall c r, todo (th s t) = c :: r -> is_add (tpc (th s t)) = true -> exists a b, c = CAdd a b }.

Lemma tinv_init g progs t : TInv (cinit g progs) t.
Proof.
  constructor; simpl; try congruence.
  - intros n. unfold holds. simpl. destruct (nth t progs []); simpl; split; [discriminate|tauto|discriminate|tauto].
  - intros c r e _ [H|[H|H]]; discriminate.
Qed.

Definition same_src (g g' : graph) (a : nat) : Prop :=
  outs (nst g' a) = outs (nst g a) /\ oidx (nst g' a) = oidx (nst g a).

Lemma lookup_same g g' a b : same_src g g' a -> lookupOutEdge (nst g' a) b = lookupOutEdge (nst g a) b.
Proof. intros [H1 H2]. unfold lookupOutEdge. now rewrite H1, H2. Qed.

Lemma pushIn_src g e a : same_src g (pushIn g e) a.
Proof.
  unfold pushIn, same_src. simpl. unfold upd. destruct (Nat.eqb_spec a (etgt e)); subst; simpl; auto.
Qed.
Lemma pushOut_src thr g a b x : x <> a -> same_src g (fst (pushOut thr g a b)) x.
Proof. intros H. unfold pushOut, same_src. simpl. rewrite upd_other by assumption. auto. Qed.

(** What a step does, besides the stepping thread: the locks of others and the source
    lists protected by locks of others are untouched. *)
Record StepInv (s s' : cstate) (t : nat) : Prop := {
  st_th : forall u, u <> t -> th s' u = th s u;
  st_lk : forall n u, u <> t -> (lk s' n = Some u <-> lk s n = Some u);
  st_src : forall a u, u <> t -> lk s a = Some u -> same_src (cg s) (cg s') a }.

Lemma same_src_refl g a : same_src g g a.
Proof. split; reflexivity. Qed.

Ltac upds := repeat first [rewrite upd_same | rewrite upd_other by auto].

Lemma step_inv thr t s s' : TInv s t -> cstep thr t s = Some s' -> StepInv s s' t.
Proof.
  intros I H. unfold cstep in H. destruct (todo (th s t)) as [|c r] eqn:T; [discriminate|].
  assert (LK : forall n, In n (holds (th s t)) -> forall v u, u <> t ->
             (v = None \/ v = Some t) -> forall m, (upd (lk s) n v m = Some u <-> lk s m = Some u)).
  { intros n Hn v u Hu Hv m. unfold upd. destruct (Nat.eqb_spec m n); [subst|tauto].
    apply (ti_hold _ _ I) in Hn. rewrite Hn. destruct Hv as [->| ->]; split; congruence. }
  assert (AQ : forall n p x, acquire s t n p = Some x -> StepInv s x t).
  { intros n p x E. unfold acquire in E. destruct (lk s n) eqn:L; [discriminate|]. injection E as <-.
    constructor; simpl.
    - intros u Hu. now rewrite upd_other.
    - intros m u Hu. unfold upd. destruct (Nat.eqb_spec m n); [subst|tauto]. rewrite L. split; congruence.
    - intros. apply same_src_refl. }
  assert (HN : forall m, In m (holds (th s t)) -> forall a u, u <> t -> lk s a = Some u -> a <> m).
  { intros m Hm a u Hu L ->. apply (ti_hold _ _ I) in Hm. congruence. }
  unfold holds in LK, HN. rewrite T in LK, HN.
  destruct (tpc (th s t)) eqn:P; try (eapply AQ; eassumption).
  - destruct (lookupOutEdge _ _); injection H as <-; constructor; simpl; intros;
      try now rewrite upd_other. tauto. apply same_src_refl. tauto. apply same_src_refl.
  - destruct (pushOut thr (cg s) (c_src c) (c_tgt c)) as [g e] eqn:E.
    assert (Eg : g = fst (pushOut thr (cg s) (c_src c) (c_tgt c))) by now rewrite E.
    destruct (Nat.eqb (c_src c) (c_tgt c)); injection H as <-; constructor; simpl; intros;
      try now rewrite upd_other.
    + tauto.
    + destruct (pushIn_src g e a) as [A B]. assert (N : a <> c_src c) by (eapply HN; simpl; eauto).
      destruct (pushOut_src thr (cg s) _ (c_tgt c) _ N) as [C D]. rewrite <- Eg in C, D.
      split; congruence.
    + tauto.
    + assert (N : a <> c_src c) by (eapply HN; simpl; eauto).
      rewrite Eg. now apply pushOut_src.
  - injection H as <-. constructor; simpl; intros.
    + now rewrite upd_other.
    + apply LK; simpl; auto.
    + apply same_src_refl.
  - injection H as <-. constructor; simpl; intros.
    + now rewrite upd_other.
    + tauto.
    + apply pushIn_src.
  - injection H as <-. constructor; simpl; intros.
    + now rewrite upd_other.
    + apply LK; simpl; auto.
    + apply same_src_refl.
  - destruct (pushOut thr (cg s) (c_src c) (c_tgt c)) as [g e] eqn:E.
    assert (Eg : g = fst (pushOut thr (cg s) (c_src c) (c_tgt c))) by now rewrite E.
    destruct (Nat.eqb (c_src c) (c_tgt c)); injection H as <-; constructor; simpl; intros;
      try now rewrite upd_other.
    + tauto.
    + destruct (pushIn_src g e a) as [A B]. assert (N : a <> c_src c) by (eapply HN; simpl; eauto).
      destruct (pushOut_src thr (cg s) _ (c_tgt c) _ N) as [C D]. rewrite <- Eg in C, D.
      split; congruence.
    + tauto.
    + assert (N : a <> c_src c) by (eapply HN; simpl; eauto).
      rewrite Eg. now apply pushOut_src.
  - injection H as <-. constructor; simpl; intros.
    + now rewrite upd_other.
    + apply LK; simpl; auto.
    + apply same_src_refl.
  - injection H as <-. constructor; simpl; intros.
    + now rewrite upd_other.
    + tauto.
    + apply pushIn_src.
  - injection H as <-. constructor; simpl; intros.
    + now rewrite upd_other.
    + apply LK; simpl; auto.
    + apply same_src_refl.
Qed.

Lemma tinv_other s s' t u : u <> t -> TInv s u -> StepInv s s' t -> TInv s' u.
Proof.
  intros Hu I S. pose proof (st_th _ _ _ S u Hu) as E. constructor; rewrite E.
  - apply I.
  - intros n. rewrite (st_lk _ _ _ S n u Hu). apply I.
  - apply I.
  - intros c r T P. rewrite <- (ti_miss _ _ I c r T P). apply lookup_same.
    apply (st_src _ _ _ S _ u Hu). apply (ti_hold _ _ I). unfold holds. rewrite T, P. now left.
  - apply I.
  - apply I.
Qed.

Ltac fin LK T :=
  try congruence;
  try (simpl; intros; discriminate);
  try (intros ? ? ? _ [?|[?|?]]; discriminate);
  try (intros ? [?|[?|?]]; discriminate);
  try (intros c' r' [= <- <-] _; solve [auto | assumption]);
  try (intros _; solve [auto | eauto]);
  try (intros c' r' e0 [= <- <-] [H'|[H'|H']]; try discriminate; injection H' as <-; subst; simpl; solve [auto]);
  try (intros e0 [H'|[H'|H']]; try discriminate; injection H' as <-; subst; simpl; solve [auto]);
  try (let k := fresh in intros k; unfold holds; simpl; rewrite ?T; rewrite LK; simpl; solve [intuition congruence]);
  try (let k := fresh in intros k; unfold holds; simpl; rewrite ?T; unfold upd;
       match goal with |- context [Nat.eqb k ?x] => destruct (Nat.eqb_spec k x) end;
       try (match goal with |- context [match ?l with [] => _ | _ => _ end] => destruct l end);
       simpl; try rewrite LK; simpl; solve [intuition congruence]).

Lemma tinv_self thr t s s' : TInv s t -> cstep thr t s = Some s' -> TInv s' t.
Proof.
  intros I H. unfold cstep in H. destruct (todo (th s t)) as [|c r] eqn:T; [discriminate|].
  pose proof (ti_hold _ _ I) as LK. unfold holds in LK. rewrite T in LK.
  pose proof (fun e => ti_ends _ _ I c r e T) as EN.
  pose proof (ti_new _ _ I c r T) as NW. pose proof (ti_add _ _ I c r T) as AD.
  assert (AQ : forall n p x, acquire s t n p = Some x -> p <> PIdle -> p <> PMiss ->
     (forall m, In m (holds (Thread p (todo (th s t)) (rets (th s t)))) <-> m = n \/ lk s m = Some t) ->
     (forall e, pend p = Some e \/ p = PRelB e \/ p = PNewRelB e ->
                esrc e = c_src c /\ etgt e = c_tgt c /\ c_src c <> c_tgt c) ->
     (is_new p = true -> exists a b, c = CNew a b) -> (is_add p = true -> exists a b, c = CAdd a b) ->
     TInv x t).
  { intros n p x E Hp Hm HH HE HNW HAD. unfold acquire in E. destruct (lk s n) eqn:L; [discriminate|]. injection E as <-.
    constructor; simpl; rewrite upd_same; simpl; rewrite ?T; try congruence.
    - intros m. rewrite <- T, HH. unfold upd. destruct (Nat.eqb_spec m n); [subst; tauto|]. tauto.
    - intros c' r' e [= <- <-]. apply HE.
    - intros c' r' [= <- <-]. exact HNW.
    - intros c' r' [= <- <-]. exact HAD. }
  destruct (tpc (th s t)) eqn:P.
  - (* PIdle *)
    destruct c as [a b|a b]; (eapply AQ; [eassumption|..]); fin LK T.
  - (* PLocked *)
    destruct (lookupOutEdge _ _) eqn:L; injection H as <-; constructor; simpl; rewrite upd_same; simpl;
      rewrite ?T; fin LK T.
  - (* PMiss *)
    destruct (pushOut thr (cg s) (c_src c) (c_tgt c)) as [g e] eqn:E.
    assert (EE : e = Edge (nexte (cg s)) (c_src c) (c_tgt c)) by (unfold pushOut in E; congruence).
    destruct (Nat.eqb_spec (c_src c) (c_tgt c)); injection H as <-; constructor; simpl; rewrite upd_same; simpl;
      rewrite ?T; fin LK T.
  - (* PRet *)
    injection H as <-. constructor; simpl; rewrite upd_same; simpl; fin LK T.
  - (* PWantB *)
    destruct (EN e (or_introl eq_refl)) as (E1 & E2 & E3).
    eapply AQ; [eassumption|..]; fin LK T.
  - (* PHasB *)
    destruct (EN e (or_introl eq_refl)) as (E1 & E2 & E3). injection H as <-.
    constructor; simpl; rewrite upd_same; simpl; rewrite ?T; fin LK T.
  - (* PRelB *)
    destruct (EN e (or_intror (or_introl eq_refl))) as (E1 & E2 & E3). injection H as <-.
    constructor; simpl; rewrite upd_same; simpl; rewrite ?T; fin LK T.
  - (* PNewLocked *)
    destruct (pushOut thr (cg s) (c_src c) (c_tgt c)) as [g e] eqn:E.
    assert (EE : e = Edge (nexte (cg s)) (c_src c) (c_tgt c)) by (unfold pushOut in E; congruence).
    destruct (Nat.eqb_spec (c_src c) (c_tgt c)); injection H as <-; constructor; simpl; rewrite upd_same; simpl;
      rewrite ?T; fin LK T.
  - (* PNewRelA *)
    destruct (EN e (or_introl eq_refl)) as (E1 & E2 & E3). injection H as <-.
    constructor; simpl; rewrite upd_same; simpl; rewrite ?T; fin LK T.
  - (* PNewWantB *)
    destruct (EN e (or_introl eq_refl)) as (E1 & E2 & E3).
    eapply AQ; [eassumption|..]; fin LK T.
  - (* PNewHasB *)
    destruct (EN e (or_introl eq_refl)) as (E1 & E2 & E3). injection H as <-.
    constructor; simpl; rewrite upd_same; simpl; rewrite ?T; fin LK T.
  - (* PNewRelB *)
    injection H as <-. constructor; simpl; rewrite upd_same; simpl; fin LK T.
Qed.

Lemma tinv_step thr t s s' : (forall u, TInv s u) -> cstep thr t s = Some s' -> forall u, TInv s' u.
Proof.
  intros I H u. destruct (Nat.eq_dec u t) as [->|N].
  - eapply tinv_self; eauto.
  - eapply tinv_other; eauto. eapply step_inv; eauto.
Qed.

Lemma exec_ind thr (P : cstate -> Prop) :
  (forall s s' t, P s -> cstep thr t s = Some s' -> P s') ->
  forall sched s s', P s -> exec thr sched s = Some s' -> P s'.
Proof.
  intros HS. induction sched as [|t r IH]; intros s s' H E; simpl in E; [now injection E as <-|].
  destruct (cstep thr t s) as [s1|] eqn:C; [|discriminate]. apply (IH s1 s'); [|exact E]. exact (HS s s1 t H C).
Qed.

Lemma tinv_exec thr sched g progs s : exec thr sched (cinit g progs) = Some s -> forall t, TInv s t.
Proof.
  intros H. apply (exec_ind thr (fun s => forall t, TInv s t)) with (sched := sched) (s := cinit g progs); auto.
  - intros. eapply tinv_step; eauto.
  - intros. apply tinv_init.
Qed.

(** ** Remaining work *)
Definition pos (p : pc) : nat :=
  match p with
  | PIdle => 0 | PLocked => 1 | PMiss => 2 | PWantB _ => 3 | PHasB _ => 4 | PRelB _ => 5 | PRet _ => 6
  | PNewLocked => 1 | PNewRelA _ => 2 | PNewWantB _ => 3 | PNewHasB _ => 4 | PNewRelB _ => 5
  end.
Definition left_ (x : thread) : nat := 7 * length (todo x) - pos (tpc x).
Definition total (N : nat) (s : cstate) : nat := list_sum (map (fun t => left_ (th s t)) (seq 0 N)).

Lemma step_left thr t s s' : cstep thr t s = Some s' ->
  left_ (th s' t) < left_ (th s t) /\ forall u, u <> t -> th s' u = th s u.
Proof.
  intros H. unfold cstep in H. destruct (todo (th s t)) as [|c r] eqn:T; [discriminate|].
  unfold left_. rewrite T. simpl length.
  destruct (tpc (th s t)) eqn:P; unfold acquire in H;
    repeat match type of H with
    | context [match lk s ?n with _ => _ end] => destruct (lk s n); [discriminate|]
    | context [match lookupOutEdge ?x ?y with _ => _ end] => destruct (lookupOutEdge x y)
    | context [pushOut ?a ?b ?c ?d] => destruct (pushOut a b c d)
    | context [Nat.eqb ?a ?b] => destruct (Nat.eqb a b)
    end; injection H as <-; simpl; rewrite upd_same; simpl; rewrite ?T; simpl;
    (split; [try lia; destruct c; simpl; lia|intros u Hu; now rewrite upd_other]).
Qed.

Lemma sum_upd (f f' : nat -> nat) t l : NoDup l -> In t l -> (forall u, u <> t -> f' u = f u) -> f' t < f t ->
  list_sum (map f' l) < list_sum (map f l).
Proof.
  intros ND HI HO HL. induction ND as [|x l Hx Hl IH]; [inversion HI|]. simpl.
  destruct (Nat.eq_dec x t) as [->|Nx].
  - assert (E : map f' l = map f l).
    { apply map_ext_in. intros y Hy. apply HO. intros ->. tauto. }
    rewrite E. lia.
  - rewrite (HO x Nx). destruct HI as [H|H]; [congruence|]. specialize (IH H). lia.
Qed.

(** Threads beyond the given programs never act. *)
Definition quiet (N : nat) (s : cstate) : Prop := forall t, N <= t -> todo (th s t) = [].
Lemma quiet_step thr N t s s' : quiet N s -> cstep thr t s = Some s' -> t < N /\ quiet N s'.
Proof.
  intros Q H. assert (L : t < N).
  { destruct (le_lt_dec N t) as [C|C]; [|exact C]. apply Q in C. unfold cstep in H. rewrite C in H. discriminate. }
  split; [exact L|]. intros u Hu. rewrite (proj2 (step_left _ _ _ _ H)) by lia. auto.
Qed.
Lemma quiet_init g progs : quiet (length progs) (cinit g progs).
Proof. intros t H. simpl. now apply nth_overflow. Qed.

Lemma step_total thr N t s s' : quiet N s -> cstep thr t s = Some s' -> total N s' < total N s.
Proof.
  intros Q H. destruct (quiet_step _ _ _ _ _ Q H) as [L _]. destruct (step_left _ _ _ _ H) as [H1 H2].
  unfold total. apply (sum_upd _ _ t); auto.
  - apply seq_NoDup.
  - apply in_seq. lia.
  - intros u Hu. simpl. now rewrite H2.
Qed.

Lemma exec_total thr N : forall sched s s', quiet N s -> exec thr sched s = Some s' ->
  total N s' + length sched <= total N s /\ quiet N s'.
Proof.
  induction sched as [|t r IH]; intros s s' Q E; simpl in E.
  - injection E as <-. simpl. split; [lia|assumption].
  - destruct (cstep thr t s) as [s1|] eqn:C; [|discriminate].
    pose proof (step_total _ _ _ _ _ Q C). destruct (quiet_step _ _ _ _ _ Q C) as [_ Q'].
    destruct (IH _ _ Q' E). simpl. split; [lia|assumption].
Qed.

Lemma total_init g progs : total (length progs) (cinit g progs) = 7 * length (concat progs).
Proof.
  unfold total, left_. cbn [th tpc todo cinit pos].
  assert (G : forall (l : list (list call)) k, list_sum (map (fun t => 7 * length (nth (t - k) l []) - 0) (seq k (length l))) = 7 * length (concat l)).
  { induction l as [|x l IH]; intros k; [reflexivity|]. cbn [length seq map concat]. 
    rewrite app_length, Nat.sub_diag. cbn [nth list_sum fold_right]. rewrite Nat.mul_add_distr_l, <- (IH (S k)).
    f_equal; [lia|]. unfold list_sum. f_equal. apply map_ext_in. intros y Hy. apply in_seq in Hy.
    replace (y - k) with (S (y - S k)) by lia. reflexivity. }
  specialize (G progs 0). rewrite <- G. f_equal. apply map_ext. intros t. now rewrite (Nat.sub_0_r t).
Qed.

(** ** Deadlock freedom *)
Definition sub_progs (progs : list (list call)) (s : cstate) : Prop :=
  forall t c, In c (todo (th s t)) -> exists p, In p progs /\ In c p.

Lemma todo_step thr t s s' u : cstep thr t s = Some s' ->
  todo (th s' u) = todo (th s u) \/ todo (th s' u) = tl (todo (th s u)).
Proof.
  intros H. destruct (Nat.eq_dec u t) as [->|N].
  - unfold cstep in H. destruct (todo (th s t)) as [|c r] eqn:T; [discriminate|].
    destruct (tpc (th s t)) eqn:P; unfold acquire in H;
    repeat match type of H with
    | context [match lk s ?n with _ => _ end] => destruct (lk s n); [discriminate|]
    | context [match lookupOutEdge ?x ?y with _ => _ end] => destruct (lookupOutEdge x y)
    | context [pushOut ?a ?b ?c ?d] => destruct (pushOut a b c d)
    | context [Nat.eqb ?a ?b] => destruct (Nat.eqb a b)
    end; injection H as <-; simpl; rewrite upd_same; simpl; rewrite ?T; auto.
  - left. now rewrite (proj2 (step_left _ _ _ _ H)).
Qed.

Lemma sub_progs_step thr progs t s s' : sub_progs progs s -> cstep thr t s = Some s' -> sub_progs progs s'.
Proof.
  intros I H u c Hc. apply (I u). destruct (todo_step _ _ _ _ u H) as [E|E]; rewrite E in Hc; [exact Hc|].
  destruct (todo (th s u)); [destruct Hc|now right].
Qed.
Lemma sub_progs_init g progs : sub_progs progs (cinit g progs).
Proof.
  intros t c H. simpl in H. exists (nth t progs []). split; [|exact H].
  destruct (le_lt_dec (length progs) t) as [L|L]; [rewrite nth_overflow in H by assumption; destruct H|].
  now apply nth_In.
Qed.

(** What a thread that cannot step is waiting for. *)
Lemma blocked thr t s c r : todo (th s t) = c :: r -> cstep thr t s = None ->
  exists n u, lk s n = Some u /\
    match tpc (th s t) with
    | PIdle => n = c_src c
    | PWantB _ | PNewWantB _ => n = c_tgt c
    | _ => False
    end.
Proof.
  intros T H. unfold cstep in H. rewrite T in H. unfold acquire in H.
  destruct (tpc (th s t)) eqn:P;
    repeat match type of H with
    | context [match lk s ?n with _ => _ end] => destruct (lk s n) eqn:L; [eauto|discriminate]
    | context [match lookupOutEdge ?x ?y with _ => _ end] => destruct (lookupOutEdge x y); discriminate
    | context [pushOut ?a ?b ?c ?d] => destruct (pushOut a b c d)
    | context [Nat.eqb ?a ?b] => destruct (Nat.eqb a b); discriminate
    end; discriminate.
Qed.

Lemma no_deadlock thr N rank progs s : (forall t, TInv s t) -> quiet N s -> sub_progs progs s ->
  Ranked rank progs -> ~ Deadlocked thr s.
Proof.
  intros I Q SP R [NF ST].
  (* the ranks of the sources waited with are bounded *)
  assert (B : exists M, forall t c r, todo (th s t) = c :: r -> rank (c_src c) <= M).
  { clear -Q. exists (list_sum (map (fun t => match todo (th s t) with [] => 0 | c :: _ => rank (c_src c) end) (seq 0 N))).
    intros t c r T. assert (L : t < N).
    { destruct (le_lt_dec N t) as [C|C]; [apply Q in C; congruence|exact C]. }
    assert (HI : In t (seq 0 N)) by (apply in_seq; lia). clear L.
    induction (seq 0 N) as [|x l IH]; [destruct HI|]. simpl. destruct HI as [->|HI].
    - rewrite T. lia.
    - specialize (IH HI). lia. }
  destruct B as [M HM].
  (* nobody can be waiting for a target while holding a source *)
  assert (W : forall k t c r e, M - rank (c_src c) <= k -> todo (th s t) = c :: r -> tpc (th s t) = PWantB e -> False).
  { induction k as [k IH] using lt_wf_ind. intros t c r e Hk T P.
    destruct (ti_add _ _ (I t) c r T) as (a & b & ->); [now rewrite P|].
    destruct (ti_ends _ _ (I t) _ _ e T) as (E1 & E2 & E3); [left; now rewrite P|]. simpl in *.
    destruct (SP t (CAdd a b)) as (p & Hp & Hc); [rewrite T; now left|].
    destruct (R p a b Hp Hc) as [C|RK]; [congruence|].
    destruct (blocked _ _ _ _ _ T (ST t)) as (n & u & L & Hn). rewrite P in Hn. simpl in Hn. subst n.
    pose proof (proj1 (ti_hold _ _ (I u) b) L) as HU. unfold holds in HU.
    destruct (todo (th s u)) as [|c' r'] eqn:T'; [destruct HU|].
    destruct (blocked _ _ _ _ _ T' (ST u)) as (n' & u' & L' & Hn').
    destruct (tpc (th s u)) eqn:P'; try (destruct HU; fail); try contradiction.
    destruct HU as [HU|[]]. simpl in HU.
    assert (RB : rank (c_src c') <= M) by (eapply HM; eauto).
    apply (IH (M - rank (c_src c'))) with (t := u) (c := c') (r := r') (e := e0); auto.
    rewrite <- HU in RK. lia. }
  apply NF. intros t. destruct (todo (th s t)) as [|c r] eqn:T; [reflexivity|exfalso].
  destruct (blocked _ _ _ _ _ T (ST t)) as (n & u & L & Hn).
  pose proof (proj1 (ti_hold _ _ (I u) n) L) as HU. unfold holds in HU.
  destruct (todo (th s u)) as [|c' r'] eqn:T'; [destruct HU|].
  destruct (blocked _ _ _ _ _ T' (ST u)) as (n' & u' & L' & Hn').
  destruct (tpc (th s u)) eqn:P'; try (destruct HU; fail); try contradiction.
  eapply W; eauto.
Qed.

Lemma c06 thr rank g progs sched s : Ranked rank progs -> exec thr sched (cinit g progs) = Some s ->
  ~ Deadlocked thr s /\ length sched <= 7 * length (concat progs).
Proof.
  intros R E. split.
  - eapply no_deadlock with (N := length progs); eauto.
    + eapply tinv_exec; eauto.
    + eapply exec_total; eauto. apply quiet_init.
    + eapply (exec_ind thr (sub_progs progs)); eauto; [intros; eapply sub_progs_step; eauto|apply sub_progs_init].
  - destruct (exec_total _ _ _ _ _ (quiet_init g progs) E) as [H _]. rewrite total_init in H. lia.
Qed.

Lemma exec_app thr s1 : forall s s' s2, exec thr s1 s = Some s' -> exec thr (s1 ++ s2) s = exec thr s2 s'.
Proof.
  induction s1 as [|t r IH]; intros s s' s2 H; simpl in *; [now injection H as <-|].
  destruct (cstep thr t s); [eauto|discriminate].
Qed.

(** Every partial run can be finished. *)
Lemma can_step_dec thr N s : quiet N s -> (exists t, cstep thr t s <> None) \/ (forall t, cstep thr t s = None).
Proof.
  intros Q. assert (D : forall l, (exists t, In t l /\ cstep thr t s <> None) \/ (forall t, In t l -> cstep thr t s = None)).
  { induction l as [|x l [(t & H1 & H2)|IH]].
    - right. intros t [].
    - left. exists t. split; [now right|exact H2].
    - destruct (cstep thr x s) eqn:C.
      + left. exists x. split; [now left|]. congruence.
      + right. intros t [->|H]; auto. }
  destruct (D (seq 0 N)) as [(t & _ & H)|H]; [left; eauto|right].
  intros t. destruct (le_lt_dec N t) as [L|L].
  - apply Q in L. unfold cstep. now rewrite L.
  - apply H, in_seq. lia.
Qed.
Lemma finished_dec N s : quiet N s -> Finished s \/ ~ Finished s.
Proof.
  intros Q. assert (D : forall l, (forall t, In t l -> todo (th s t) = []) \/ ~ (forall t, In t l -> todo (th s t) = [])).
  { induction l as [|x l [IH|IH]].
    - left. intros t [].
    - destruct (todo (th s x)) eqn:T; [left|right].
      + intros t [->|H]; auto.
      + intros H. specialize (H x (or_introl eq_refl)). congruence.
    - right. intros H. apply IH. intros t Ht. apply H. now right. }
  destruct (D (seq 0 N)) as [H|H]; [left|right].
  - intros t. destruct (le_lt_dec N t) as [L|L]; [now apply Q|]. apply H, in_seq. lia.
  - intros F. apply H. intros t _. apply F.
Qed.

Lemma c06_complete thr rank g progs sched s : Ranked rank progs -> exec thr sched (cinit g progs) = Some s ->
  exists more s', exec thr (sched ++ more) (cinit g progs) = Some s' /\ Finished s'.
Proof.
  intros R. remember (total (length progs) s) as k eqn:K. revert sched s K.
  induction k as [k IH] using lt_wf_ind. intros sched s -> E.
  assert (Q : quiet (length progs) s) by (eapply exec_total; eauto; apply quiet_init).
  destruct (finished_dec _ _ Q) as [F|F].
  { exists [], s. rewrite app_nil_r. auto. }
  destruct (can_step_dec thr _ _ Q) as [(t & H)|H].
  - destruct (cstep thr t s) as [s1|] eqn:C; [|congruence].
    assert (E1 : exec thr (sched ++ [t]) (cinit g progs) = Some s1).
    { rewrite (exec_app _ _ _ _ _ E). simpl. now rewrite C. }
    destruct (IH (total (length progs) s1)) with (sched := sched ++ [t]) (s := s1) as (m & s' & Hm & Hs); auto.
    + eapply step_total; eauto.
    + exists (t :: m), s'. rewrite <- app_assoc in Hm. auto.
  - exfalso. eapply c06; eauto. split; auto.
Qed.
