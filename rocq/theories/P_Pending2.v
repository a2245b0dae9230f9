(** Proofs about runs, emission and phases 2 and 3. *)
From Verif Require Import Base M_Graph S_Graph P_Graph M_Range M_Netlist M_Annot S_Annot P_Annot
  M_Interval M_Heap M_Drivers M_Pending S_Pending P_Pending.

(** ** Runs *)
Fixpoint grp (cur : list pend) (prev : pend) (r : list pend) : list (list pend) :=
  match r with
  | [] => [cur]
  | x :: r' => if same_node x prev then grp (cur ++ [x]) x r' else cur :: grp [x] x r'
  end.

Lemma sub_mid pre cur rest : sub (pre ++ cur ++ rest) (length pre) (length pre + length cur) = cur.
Proof.
  unfold sub. replace (length pre + length cur - length pre) with (length cur) by lia.
  rewrite skipn_app, skipn_all, Nat.sub_diag. cbn [app skipn]. rewrite firstn_app, firstn_all, Nat.sub_diag. cbn. apply app_nil_r.
Qed.

Lemma runs_grp : forall r pre cur prev q, q = pre ++ cur ++ r ->
  runs_of q (length pre :: starts (length pre + length cur) prev r ++ [length q]) = grp cur prev r.
Proof.
  induction r as [|x r IH]; intros pre cur prev q E.
  - cbn [starts app grp runs_of]. f_equal. subst q. rewrite app_nil_r, app_length.
    pose proof (sub_mid pre cur []) as H. rewrite app_nil_r in H. exact H.
  - cbn [starts grp]. destruct (same_node x prev); cbn [app].
    + replace (S (length pre + length cur)) with (length pre + length (cur ++ [x])) by (rewrite app_length; cbn; lia).
      apply IH. rewrite E, <- app_assoc. reflexivity.
    + cbn [runs_of]. f_equal.
      * rewrite E. apply sub_mid.
      * specialize (IH (pre ++ cur) [x] x q). rewrite app_length in IH. cbn [length] in IH.
        replace (S (length pre + length cur)) with (length pre + length cur + 1) by lia. apply IH.
        rewrite E, <- app_assoc. reflexivity.
Qed.

Lemma firstReal_split q : exists N R, q = N ++ R /\ firstReal q = length N /\
  Forall (fun p => pnode p = None) N /\ match R with [] => True | p :: _ => pnode p <> None end.
Proof.
  induction q as [|p q (N & R & E1 & E2 & E3 & E4)].
  - exists [], []. auto.
  - cbn [firstReal]. destruct (pnode p) eqn:P.
    + exists [], (p :: q). cbn. split; [reflexivity|]. split; [reflexivity|]. split; [constructor|]. congruence.
    + exists (p :: N), R. cbn. rewrite E1 at 1. split; [reflexivity|]. split; [now rewrite E2|]. split; [now constructor|assumption].
Qed.

Lemma runs_split q : exists N R, q = N ++ R /\ Forall (fun p => pnode p = None) N /\
  match R with [] => runs q = [] | p :: r => pnode p <> None /\ runs q = grp [p] p r end.
Proof.
  destruct (firstReal_split q) as (N & R & E1 & E2 & E3 & E4). exists N, R. split; [exact E1|]. split; [exact E3|].
  unfold runs, runStarts. rewrite E2. assert (SK : skipn (length N) q = R) by (rewrite E1, skipn_app, skipn_all, Nat.sub_diag; reflexivity). rewrite SK.
  destruct R as [|p r]; [destruct q; reflexivity|]. split; [exact E4|].
  replace (S (length N)) with (length N + length [p]) by (cbn; lia). rewrite E1. now apply runs_grp.
Qed.

Lemma grp_concat : forall r cur prev, concat (grp cur prev r) = cur ++ r.
Proof.
  induction r as [|x r IH]; intros cur prev; cbn [grp].
  - cbn. now rewrite !app_nil_r.
  - destruct (same_node x prev); [rewrite IH, <- app_assoc; reflexivity|]. cbn [concat]. now rewrite IH.
Qed.

Section Srt.
Variable addr : nat -> nat.
Hypothesis inj : forall a b, addr a = addr b -> a = b.

(** One node per group; the groups' addresses increase. *)
Definition group_of (n : nat) (g : list pend) : Prop := g <> [] /\ Forall (fun p => pnode p = Some n) g.

Lemma same_node_eq p q : same_node p q = true <-> pnode p = pnode q.
Proof.
  unfold same_node. destruct (pnode p), (pnode q); try rewrite Nat.eqb_eq; split; congruence.
Qed.

Lemma grp_groups : forall r cur prev n, group_of n cur -> pnode prev = Some n ->
  StronglySorted (node_le addr) (prev :: r) ->
  exists ns, Forall2 group_of (n :: ns) (grp cur prev r) /\ StronglySorted (fun a b => addr a < addr b) (n :: ns).
Proof.
  induction r as [|x r IH]; intros cur prev n G PN SS.
  - exists []. cbn. split; [repeat constructor; exact (proj1 G) || exact (proj2 G)|]. repeat constructor.
  - cbn [grp]. inversion SS as [|? ? SS' FA]; subst. inversion FA as [|? ? Fx Fr]; subst.
    unfold node_le in Fx. rewrite PN in Fx. destruct (pnode x) as [m|] eqn:PX; [|contradiction].
    destruct (same_node x prev) eqn:SN.
    + apply same_node_eq in SN. assert (m = n) by congruence. subst m. apply IH; auto. destruct G as [G1 G2]. split.
      * destruct cur; discriminate.
      * apply Forall_app. split; [exact G2|]. repeat constructor. exact PX.
    + assert (NE : m <> n) by (intros ->; rewrite <- PN in PX; apply same_node_eq in PX; congruence).
      destruct (IH [x] x m) as (ns & F & S).
      * split; [discriminate|repeat constructor; exact PX].
      * exact PX.
      * exact SS'.
      * exists (m :: ns). split; [constructor; assumption|]. constructor; [exact S|].
        assert (LT : addr n < addr m) by (assert (addr n <> addr m) by (intros Q; apply inj in Q; congruence); lia).
        constructor; [exact LT|]. inversion S as [|? ? _ FM]; subst. eapply Forall_impl; [|exact FM]. cbn. intros; lia.
Qed.

Lemma sorted_app_r {A} (P : A -> A -> Prop) x y : StronglySorted P (x ++ y) -> StronglySorted P y.
Proof. induction x; cbn; [auto|]. intros H. inversion H; auto. Qed.

Lemma sorted_real R : StronglySorted (node_le addr) R -> match R with [] => True | p :: _ => pnode p <> None end ->
  forallb has_target R = true.
Proof.
  destruct R as [|p r]; [reflexivity|]. intros S H. apply forallb_forall. inversion S as [|? ? _ F]; subst.
  rewrite Forall_forall in F. intros x [<-|I].
  - unfold has_target. destruct (pnode p); congruence.
  - specialize (F x I). unfold node_le in F. unfold has_target. destruct (pnode p); [|congruence]. destruct (pnode x); auto.
Qed.

Lemma runs_spec q : StronglySorted (node_le addr) q ->
  concat (runs q) = filter has_target q /\
  exists ns, Forall2 group_of ns (runs q) /\ StronglySorted (fun a b => addr a < addr b) ns.
Proof.
  intros S. destruct (runs_split q) as (N & R & E & FN & H).
  assert (FN' : filter has_target N = []).
  { clear - FN. induction FN as [|p N P _ IH]; [reflexivity|]. cbn. unfold has_target at 1. now rewrite P. }
  assert (SR : StronglySorted (node_le addr) R) by (rewrite E in S; eapply sorted_app_r; eauto).
  assert (FR : filter has_target R = R).
  { assert (B : forallb has_target R = true) by (apply sorted_real; [assumption|]; destruct R; tauto).
    clear - B. induction R as [|p R IH]; [reflexivity|]. cbn in *. apply andb_true_iff in B. destruct B as [-> B]. now rewrite IH. }
  replace (filter has_target q) with R by (rewrite E, filter_app, FN', FR; reflexivity).
  destruct R as [|p r].
  - rewrite H. split; [reflexivity|]. exists []. split; constructor.
  - destruct H as [P H]. rewrite H. split; [apply grp_concat|]. destruct (pnode p) as [n|] eqn:PN; [|congruence].
    destruct (grp_groups r [p] p n) as (ns & F & SS); auto.
    + split; [discriminate|repeat constructor; exact PN].
    + exists (n :: ns). auto.
Qed.

(** Different runs, different nodes. *)
Lemma runs_distinct q i j r1 r2 p1 p2 : StronglySorted (node_le addr) q ->
  nth_error (runs q) i = Some r1 -> nth_error (runs q) j = Some r2 -> In p1 r1 -> In p2 r2 ->
  pnode p1 = pnode p2 -> i = j.
Proof.
  intros S H1 H2 I1 I2 E. destruct (runs_spec q S) as (_ & ns & F & SS).
  assert (K : forall i r p, nth_error (runs q) i = Some r -> In p r -> exists n, nth_error ns i = Some n /\ pnode p = Some n).
  { clear - F. induction F as [|n g ns gs G F IH]; intros i r p H I; [destruct i; discriminate|].
    destruct i as [|i]; cbn in H.
    - injection H as <-. exists n. split; [reflexivity|]. destruct G as [_ G]. rewrite Forall_forall in G. auto.
    - eapply IH; eauto. }
  destruct (K _ _ _ H1 I1) as (n1 & N1 & Q1). destruct (K _ _ _ H2 I2) as (n2 & N2 & Q2). assert (n1 = n2) by congruence. subst n2.
  clear - SS N1 N2. revert i j N1 N2. induction SS as [|n ns SS IH F]; intros i j N1 N2; [destruct i; discriminate|].
  rewrite Forall_forall in F. destruct i as [|i], j as [|j]; cbn in *; auto.
  - injection N1 as <-. apply nth_error_In in N2. apply F in N2. lia.
  - injection N2 as <-. apply nth_error_In in N1. apply F in N1. lia.
Qed.
End Srt.

(** ** Emission *)
Lemma emit_dep vt dm p ds d : emitEdgesFor vt dm p = DOk ds -> In d ds ->
  exists n s r, pnode p = Some n /\ d = DDep s n (Some (pref p)) r (pkind p).
Proof.
  unfold emitEdgesFor. destruct (pnode p) as [n|]; [|intros [= <-] []].
  destruct (vt_lookup vt (psym p) (pbounds p)) as [st|].
  - intros [= <-] [<-|[]]. eauto 6.
  - destruct (dm (psym p)) as [dr|]; [|intros [= <-] []].
    destruct (forEachDriverInterval dr (pbounds p)) as [l|]; [|discriminate]. cbn [dbind]. intros [= <-] I.
    apply in_flat_map in I. destruct I as (x & _ & I). destruct (intersection (fst x) (pbounds p)); [|destruct I].
    apply in_map_iff in I. destruct I as (s & <- & _). eauto 6.
Qed.

Lemma emit_all_app vt dm x : forall y, emit_all vt dm (x ++ y) =
  dbind (emit_all vt dm x) (fun l => dbind (emit_all vt dm y) (fun m => DOk (l ++ m))).
Proof.
  induction x as [|p x IH]; intros y; cbn [app emit_all].
  - destruct (emit_all vt dm y); reflexivity.
  - destruct (emitEdgesFor vt dm p) as [l|]; [|reflexivity]. cbn [dbind]. rewrite IH.
    destruct (emit_all vt dm x) as [m|]; [|reflexivity]. cbn [dbind].
    destruct (emit_all vt dm y) as [k|]; [|reflexivity]. cbn [dbind]. now rewrite app_assoc.
Qed.
Lemma emit_all_in vt dm : forall q ds d, emit_all vt dm q = DOk ds -> In d ds ->
  exists p l, In p q /\ emitEdgesFor vt dm p = DOk l /\ In d l.
Proof.
  induction q as [|p q IH]; intros ds d; cbn [emit_all]; [intros [= <-] []|].
  destruct (emitEdgesFor vt dm p) as [l|] eqn:E; [|discriminate]. cbn [dbind].
  destruct (emit_all vt dm q) as [m|]; [|discriminate]. cbn [dbind]. intros [= <-] I. apply in_app_iff in I. destruct I as [I|I].
  - exists p, l. cbn. auto.
  - destruct (IH m d eq_refl I) as (p' & l' & A & B). exists p', l'. cbn. tauto.
Qed.
Lemma emit_all_has vt dm : forall q ds p, emit_all vt dm q = DOk ds -> In p q ->
  exists l, emitEdgesFor vt dm p = DOk l /\ incl l ds.
Proof.
  induction q as [|p q IH]; intros ds p0; cbn [emit_all]; [intros _ []|].
  destruct (emitEdgesFor vt dm p) as [l|] eqn:E; [|discriminate]. cbn [dbind].
  destruct (emit_all vt dm q) as [m|]; [|discriminate]. cbn [dbind]. intros [= <-] [<-|I].
  - exists l. split; [exact E|]. intros x Hx. apply in_app_iff. auto.
  - destruct (IH m p0 eq_refl I) as (l' & A & B). exists l'. split; [exact A|]. intros x Hx. apply in_app_iff. auto.
Qed.
Lemma emit_real vt dm : forall q, emit_all vt dm (filter has_target q) = emit_all vt dm q.
Proof.
  induction q as [|p q IH]; [reflexivity|]. cbn [filter emit_all]. destruct (has_target p) eqn:H.
  - cbn [emit_all]. now rewrite IH.
  - assert (emitEdgesFor vt dm p = DOk []) as ->.
    { unfold emitEdgesFor. unfold has_target in H. destruct (pnode p); [discriminate|reflexivity]. }
    cbn [dbind]. rewrite IH. destruct (emit_all vt dm q); reflexivity.
Qed.
Lemma emit_perm vt dm q q' : Permutation q q' -> forall ds, emit_all vt dm q = DOk ds ->
  exists ds', emit_all vt dm q' = DOk ds' /\ Permutation ds ds'.
Proof.
  induction 1 as [|p q q' P IH|x y q|q q1 q2 P1 IH1 P2 IH2]; intros ds; cbn [emit_all].
  - intros [= <-]. exists []. auto.
  - destruct (emitEdgesFor vt dm p) as [l|]; [|discriminate]. cbn [dbind].
    destruct (emit_all vt dm q) as [m|]; [|discriminate]. cbn [dbind]. intros [= <-].
    destruct (IH m eq_refl) as (m' & -> & PM). exists (l ++ m'). split; [reflexivity|]. now apply Permutation_app_head.
  - destruct (emitEdgesFor vt dm y) as [l|]; [|discriminate]. cbn [dbind].
    destruct (emitEdgesFor vt dm x) as [l2|]; [|discriminate]. cbn [dbind].
    destruct (emit_all vt dm q) as [m|]; [|discriminate]. cbn [dbind]. intros [= <-].
    exists (l2 ++ l ++ m). split; [reflexivity|]. rewrite !app_assoc. apply Permutation_app_tail, Permutation_app_comm.
  - intros E. destruct (IH1 ds E) as (d1 & E1 & Q1). destruct (IH2 d1 E1) as (d2 & E2 & Q2). exists d2. split; [exact E2|]. now transitivity d1.
Qed.
(** Only the items of [b]'s own target matter for pairs into [b]. *)
Lemma emit_target vt dm b : forall q ds, emit_all vt dm q = DOk ds ->
  exists es, emit_all vt dm (filter (targets b) q) = DOk es /\ forall a, onp a b ds = onp a b es.
Proof.
  induction q as [|p q IH]; intros ds; cbn [emit_all filter].
  - intros [= <-]. exists []. auto.
  - destruct (emitEdgesFor vt dm p) as [l|] eqn:E; [|discriminate]. cbn [dbind].
    destruct (emit_all vt dm q) as [m|]; [|discriminate]. cbn [dbind]. intros [= <-].
    destruct (IH m eq_refl) as (es & E2 & H). destruct (targets b p) eqn:T.
    + cbn [emit_all]. rewrite E. cbn [dbind]. rewrite E2. cbn [dbind]. eexists. split; [reflexivity|].
      intros a. rewrite !onp_app. now rewrite H.
    + exists es. split; [exact E2|]. intros a. rewrite onp_app, H.
      assert (onp a b l = []) as ->; [|reflexivity]. unfold onp.
      assert (K : forall d, In d l -> deq a b d = false).
      { intros d I. destruct (emit_dep _ _ _ _ _ E I) as (n & s & r & PN & ->). unfold deq. cbn [dsrc dtgt].
        unfold targets in T. rewrite PN in T. rewrite T. apply andb_false_r. }
      clear - K. induction l as [|d l IH]; [reflexivity|]. cbn [filter]. rewrite (K d) by now left. apply IH. intros; apply K; now right.
Qed.

(** ** The programs of a parallel resolution *)
Section Setup.
Variables (vt : vtracker) (dm : nat -> option dmap) (addr : nat -> nat) (q q' : list pend)
  (blocks : list (list (list pend))) (progs : nat -> list dep).
Hypothesis inj : forall a b, addr a = addr b -> a = b.
Hypothesis SU : par_setup vt dm addr q q' blocks progs.

Lemma nth_concat {A} (ll : list (list A)) : forall t x, In x (nth t ll []) -> t < length ll.
Proof. induction ll as [|l ll IH]; intros [|t] x H; cbn in *; try tauto; try lia. apply IH in H. lia. Qed.
Lemma concat_pos {A} (ll : list (list A)) : forall t j x, nth_error (nth t ll []) j = Some x ->
  nth_error (concat ll) (length (concat (firstn t ll)) + j) = Some x.
Proof.
  induction ll as [|l ll IH]; intros [|t] j x H.
  - destruct j; discriminate.
  - destruct j; discriminate.
  - cbn in *. rewrite nth_error_app1; [exact H|]. apply nth_error_Some. congruence.
  - cbn [nth firstn concat] in *. rewrite app_length, nth_error_app2 by lia. rewrite <- Nat.add_assoc, Nat.add_comm, <- Nat.add_sub_assoc by lia.
    rewrite Nat.sub_diag, Nat.add_0_r. apply IH. exact H.
Qed.
Lemma concat_pos_inj {A} (ll : list (list A)) : forall t t' j j',
  j < length (nth t ll []) -> j' < length (nth t' ll []) ->
  length (concat (firstn t ll)) + j = length (concat (firstn t' ll)) + j' -> t = t'.
Proof.
  induction ll as [|l ll IH]; intros [|t] [|t'] j j' H H' E; cbn [nth firstn concat] in *; try rewrite app_length in *; cbn in *; try lia.
  f_equal. apply (IH t t' j j'); auto. rewrite ?app_length in E. lia.
Qed.

Lemma setup_owns : own_targets progs.
Proof.
  intros t t' d d' I I' E.
  destruct (emit_all_in _ _ _ _ _ (ps_progs _ _ _ _ _ _ _ SU t) I) as (p & l & P1 & P2 & P3).
  destruct (emit_all_in _ _ _ _ _ (ps_progs _ _ _ _ _ _ _ SU t') I') as (p' & l' & P1' & P2' & P3').
  destruct (emit_dep _ _ _ _ _ P2 P3) as (n & s & r & N & ->). destruct (emit_dep _ _ _ _ _ P2' P3') as (n' & s' & r' & N' & ->).
  cbn in E. subst n'. apply in_concat in P1, P1'. destruct P1 as (g & G1 & G2), P1' as (g' & G1' & G2').
  apply In_nth_error in G1, G1'. destruct G1 as [j G1], G1' as [j' G1'].
  pose proof (concat_pos _ _ _ _ G1) as C. pose proof (concat_pos _ _ _ _ G1') as C'. rewrite (ps_blocks _ _ _ _ _ _ _ SU) in C, C'.
  pose proof (runs_distinct addr inj q' _ _ _ _ p p' (ps_sorted _ _ _ _ _ _ _ SU) C C' G2 G2') as RD. rewrite N, N' in RD. specialize (RD eq_refl).
  eapply concat_pos_inj; [| |exact RD]; apply nth_error_Some; congruence.
Qed.

Lemma progs_end t : length blocks <= t -> progs t = [].
Proof.
  intros L. pose proof (ps_progs _ _ _ _ _ _ _ SU t) as H. rewrite nth_overflow in H by assumption. cbn in H. congruence.
Qed.

Lemma setup_emit : emit_all vt dm q' = DOk (flat_map progs (seq 0 (length blocks))).
Proof.
  rewrite <- emit_real. destruct (runs_spec addr inj q' (ps_sorted _ _ _ _ _ _ _ SU)) as [<- _].
  rewrite <- (ps_blocks _ _ _ _ _ _ _ SU).
  assert (G : forall bl k, (forall t, emit_all vt dm (concat (nth t bl [])) = DOk (progs (k + t))) ->
    emit_all vt dm (concat (concat bl)) = DOk (flat_map progs (seq k (length bl)))).
  { induction bl as [|b bl IH]; intros k H; [reflexivity|]. cbn [concat length seq flat_map]. rewrite concat_app, emit_all_app.
    pose proof (H 0) as H0. cbn [nth] in H0. rewrite Nat.add_0_r in H0. rewrite H0. cbn [dbind].
    rewrite (IH (S k)); [reflexivity|]. intros t. specialize (H (S t)). cbn [nth] in H. rewrite H. do 2 f_equal. lia. }
  apply G. exact (ps_progs _ _ _ _ _ _ _ SU).
Qed.

Lemma onp_nil a b l : (forall d, In d l -> dtgt d <> b) -> onp a b l = [].
Proof.
  intros H. unfold onp. induction l as [|d l IH]; [reflexivity|]. cbn [filter].
  assert (deq a b d = false) as ->. { apply deq_false. intros Q. injection Q as _ Q. now apply (H d (or_introl eq_refl)). }
  apply IH. intros x I. apply H. now right.
Qed.

Lemma onp_own a b t : owns progs t b -> onp a b (flat_map progs (seq 0 (length blocks))) = onp a b (progs t).
Proof.
  intros (d & I & E).
  assert (L : t < length blocks).
  { destruct (le_lt_dec (length blocks) t) as [G|G]; [|exact G]. rewrite (progs_end t G) in I. destruct I. }
  assert (NO : forall t' d', t' <> t -> In d' (progs t') -> dtgt d' <> b).
  { intros t' d' N I' Q. apply N. eapply setup_owns; eauto. congruence. }
  replace (length blocks) with (t + S (length blocks - S t)) by lia.
  rewrite seq_app. cbn [seq]. rewrite flat_map_app. cbn [flat_map]. rewrite !onp_app.
  rewrite (onp_nil a b (flat_map progs (seq 0 t))), (onp_nil a b (flat_map progs (seq (S (0 + t)) _))).
  - cbn. apply app_nil_r.
  - intros d' I'. apply in_flat_map in I'. destruct I' as (t' & S' & I'). apply in_seq in S'. apply (NO t'); [lia|exact I'].
  - intros d' I'. apply in_flat_map in I'. destruct I' as (t' & S' & I'). apply in_seq in S'. apply (NO t'); [lia|exact I'].
Qed.
Lemma onp_free a b : (forall t, ~ owns progs t b) -> onp a b (flat_map progs (seq 0 (length blocks))) = [].
Proof.
  intros H. apply onp_nil. intros d I Q. apply in_flat_map in I. destruct I as (t & _ & I). apply (H t). exists d. auto.
Qed.

Lemma owns_dec b : (exists t, owns progs t b) \/ forall t, ~ owns progs t b.
Proof.
  destruct (existsb (fun d => Nat.eqb (dtgt d) b) (flat_map progs (seq 0 (length blocks)))) eqn:E.
  - left. apply existsb_exists in E. destruct E as (d & I & Q). apply Nat.eqb_eq in Q. apply in_flat_map in I. destruct I as (t & _ & I). exists t, d. auto.
  - right. intros t (d & I & Q). assert (existsb (fun d => Nat.eqb (dtgt d) b) (flat_map progs (seq 0 (length blocks))) = true); [|congruence].
    apply existsb_exists. exists d. split; [|now apply Nat.eqb_eq]. apply in_flat_map. exists t. split; [|exact I].
    apply in_seq. destruct (le_lt_dec (length blocks) t) as [G|G]; [|lia]. rewrite (progs_end t G) in I. destruct I.
Qed.

Lemma setup_sequential nl ds nl' sched s : reachable thr (ng nl) ->
  emit_all vt dm q' = DOk ds -> drun nl ds = Some nl' ->
  rexec sched (rinit nl progs) = Some s -> rdone s -> same_annotations (rnl s) nl'.
Proof.
  intros RG ED DR EX DN a b. rewrite setup_emit in ED. injection ED as <-.
  destruct (drun_ann nl _ nl nl' RG eq_refl DR) as (_ & _ & _ & _ & H). specialize (H a b).
  pose proof (RI_exec nl progs setup_owns sched _ _ (RI_init nl progs RG) EX) as I.
  destruct (RI_done nl progs _ I DN) as [D1 D2].
  destruct (owns_dec b) as [[t OB]|NO].
  - rewrite (onp_own a b t OB), (D1 t a b OB) in H. congruence.
  - rewrite (onp_free a b NO) in H. cbn in H. rewrite D2 by assumption. congruence.
Qed.

Lemma setup_progress nl ds nl' sched s t : reachable thr (ng nl) ->
  emit_all vt dm q' = DOk ds -> drun nl ds = Some nl' ->
  rexec sched (rinit nl progs) = Some s -> fst (rth s t) <> [] -> rstep t s <> None.
Proof.
  intros RG ED DR EX NE. rewrite setup_emit in ED. injection ED as <-.
  destruct (drun_ann nl _ nl nl' RG eq_refl DR) as (_ & _ & _ & HN & H).
  pose proof (RI_exec nl progs setup_owns sched _ _ (RI_init nl progs RG) EX) as I.
  assert (IN : forall d, In d (progs t) -> In d (flat_map progs (seq 0 (length blocks)))).
  { intros d J. apply in_flat_map. exists t. split; [|exact J]. apply in_seq.
    destruct (le_lt_dec (length blocks) t) as [G|G]; [|lia]. rewrite (progs_end t G) in J. destruct J. }
  eapply RI_progress; eauto.
  intros a b. destruct (in_dec Nat.eq_dec b (map dtgt (progs t))) as [IB|NB].
  - rewrite <- (onp_own a b t); [now rewrite H|]. apply in_map_iff in IB. destruct IB as (d & E & J). exists d. auto.
  - rewrite onp_nil; [discriminate|]. intros d J Q. apply NB. apply in_map_iff. exists d. auto.
Qed.
End Setup.

(** ** Comparing two orders *)
Lemma astep_nonempty nl l d l' : astep nl l d = Some l' -> l' <> [].
Proof.
  destruct d as [a b|a b sy r k]; cbn [astep]; [intros [= <-]; destruct l; discriminate|].
  unfold ann_dep. destruct l as [|x l].
  - destruct (setVariable _ _ _) as [[y []]|]; intros [= <-]; discriminate.
  - destruct (setVariable x _ _) as [[y []]|]; [intros [= <-]; discriminate| |discriminate].
    destruct (setVariable _ _ _) as [[z f]|]; intros [= <-]; discriminate.
Qed.
Lemma arun_nonempty nl : forall ds l l', arun nl l ds = Some l' -> (l' <> [] <-> l <> [] \/ ds <> []).
Proof.
  induction ds as [|d ds IH]; intros l l' H; cbn [arun] in H.
  - injection H as <-. split; [auto|]. intros [A|A]; [exact A|congruence].
  - destruct (astep nl l d) as [m|] eqn:E; [|discriminate]. apply astep_nonempty in E. rewrite (IH _ _ H). split; [|auto].
    intros _. right. discriminate.
Qed.
Lemma drun_edges nl ds nl' a b : reachable thr (ng nl) -> drun nl ds = Some nl' ->
  (has_edge nl' a b <-> has_edge nl a b \/ exists d, In d ds /\ dsrc d = a /\ dtgt d = b).
Proof.
  intros RG H. destruct (drun_ann nl _ nl nl' RG eq_refl H) as (_ & _ & _ & _ & A). specialize (A a b).
  apply arun_nonempty in A. unfold has_edge. rewrite A. apply or_iff_compat_l. split.
  - intros N. destruct (onp a b ds) as [|d r] eqn:E; [congruence|]. exists d.
    assert (I : In d (onp a b ds)) by (rewrite E; now left). apply filter_In in I. destruct I as [I D]. apply deq_true in D. tauto.
  - intros (d & I & E) Q. assert (J : In d (onp a b ds)) by (apply filter_In; split; [exact I|now apply deq_true]). rewrite Q in J. destruct J.
Qed.

Lemma drun_stable vt dm nl q q' ds ds' nl1 nl2 : reachable thr (ng nl) ->
  (forall n, filter (targets n) q' = filter (targets n) q) ->
  emit_all vt dm q = DOk ds -> emit_all vt dm q' = DOk ds' ->
  drun nl ds = Some nl1 -> drun nl ds' = Some nl2 -> same_annotations nl1 nl2.
Proof.
  intros RG ST E E' D D' a b.
  destruct (drun_ann nl _ nl nl1 RG eq_refl D) as (_ & _ & _ & _ & A). specialize (A a b).
  destruct (drun_ann nl _ nl nl2 RG eq_refl D') as (_ & _ & _ & _ & A'). specialize (A' a b).
  destruct (emit_target _ _ b _ _ E) as (es & F & G). destruct (emit_target _ _ b _ _ E') as (es' & F' & G').
  rewrite ST in F'. assert (es' = es) by congruence. subst es'. rewrite G in A. rewrite G' in A'. congruence.
Qed.

Lemma pair_calls_in a b r : forall ds, In r (pair_calls a b ds) <-> exists sy k, In (DDep a b sy r k) ds.
Proof.
  induction ds as [|d ds IH]; cbn [pair_calls]; [split; [intros []|intros (? & ? & [])]|].
  destruct d as [x y|x y sy r' k].
  - rewrite IH. split; intros (s & k & I); exists s, k; [now right|]. destruct I as [I|I]; [discriminate|exact I].
  - destruct (Nat.eqb x a && Nat.eqb y b) eqn:E.
    + apply andb_true_iff in E. rewrite !Nat.eqb_eq in E. destruct E as [-> ->]. cbn. rewrite IH. split.
      * intros [->|(s & k' & I)]; [exists sy, k; now left|exists s, k'; now right].
      * intros (s & k' & [I|I]); [left; congruence|right; eauto].
    + rewrite IH. split; intros (s & k' & I); exists s, k'; [now right|]. destruct I as [I|I]; [|exact I].
      injection I as -> -> _ _ _. rewrite !Nat.eqb_refl in E. discriminate.
Qed.

Lemma drun_bits nl ds nl' a b s : reachable thr (ng nl) -> drun nl ds = Some nl' ->
  one_symbol a b s ds -> mono s (pair_ann nl a b) ->
  forall i, annotated nl' a b s i <-> annotated nl a b s i \/ exists sy r k, In (DDep a b sy r k) ds /\ wanted nl a r i.
Proof.
  intros RG H O M i. destruct (drun_mono ds nl nl' a b s RG O M H) as (_ & _ & _ & C & _).
  unfold annotated. change (lcov (pair_ann nl' a b) s i <-> lcov (pair_ann nl a b) s i \/ exists sy r k, In (DDep a b sy r k) ds /\ wanted nl a r i).
  rewrite C. apply or_iff_compat_l. split.
  - intros (r & I & W). apply pair_calls_in in I. destruct I as (sy & k & I). exists sy, r, k. auto.
  - intros (sy & r & k & I & W). exists r. split; [|exact W]. apply pair_calls_in. eauto.
Qed.

(** ** Phases 2 and 3 *)
Definition item_of (tasks : list task) (i : nat) : list pend := match nth_error tasks i with Some k => t_items k | None => [] end.
Definition throws_of (tasks : list task) (i : nat) : bool := match nth_error tasks i with Some k => t_throws k | None => false end.

Record PI (tasks : list task) (q : list pend) (s : pstate) : Prop := {
  pi_main : mainq s = q;
  pi_nodup : NoDup (waiting s);
  pi_lt : forall i, In i (waiting s) -> i < length tasks;
  pi_wait : forall i, In i (waiting s) -> bufs s i = [];
  pi_run : forall t i r, running s t = Some (i, r) ->
     ~ In i (waiting s) /\ item_of tasks i = bufs s i ++ r /\ tlocal s t = Some i /\ i < length tasks;
  pi_uniq : forall t t' i r r', running s t = Some (i, r) -> running s t' = Some (i, r') -> t = t';
  pi_done : forall i, i < length tasks -> ~ In i (waiting s) -> (forall t r, running s t <> Some (i, r)) ->
     bufs s i = item_of tasks i /\ (throws_of tasks i = true -> pexc s <> None);
  pi_idle : forall t, running s t = None -> tlocal s t = None;
  pi_exc : forall i, pexc s = Some i -> throws_of tasks i = true /\ i < length tasks }.

Lemma PI_init tasks q : PI tasks q (pinit q tasks).
Proof.
  constructor; cbn; auto; try discriminate.
  - apply seq_NoDup.
  - intros i I. apply in_seq in I. lia.
  - intros i L N. exfalso. apply N. apply in_seq. lia.
Qed.

Lemma nth_cut {A} (l : list A) c x : nth_error l c = Some x -> l = firstn c l ++ x :: skipn (S c) l.
Proof.
  revert c. induction l as [|y l IH]; intros [|c] H; cbn in *; try discriminate; [congruence|]. f_equal. now apply IH.
Qed.

Lemma PI_step tasks q tc s s' : PI tasks q s -> pstep tasks tc s = Some s' -> PI tasks q s'.
Proof.
  intros I H. destruct tc as [t c]. unfold pstep in H. destruct (running s t) as [[i [|p r]]|] eqn:RT.
  - (* end of the task *)
    injection H as <-. destruct (pi_run _ _ _ I _ _ _ RT) as (W & IT & TL & LT). rewrite app_nil_r in IT.
    set (ex := match nth_error tasks i with Some k => _ | None => _ end).
    assert (EX : (pexc s <> None -> ex <> None) /\ (throws_of tasks i = true -> ex <> None) /\
                 (forall j, ex = Some j -> pexc s = Some j \/ (j = i /\ throws_of tasks i = true))).
    { unfold ex, throws_of. destruct (nth_error tasks i) as [k|]; [|split; [auto|split; [discriminate|auto]]].
      destruct (t_throws k); [|split; [auto|split; [discriminate|auto]]].
      destruct (pexc s); split; try (intros; congruence); split; try (intros; congruence); intros j [= <-]; auto. }
    destruct EX as (EX1 & EX2 & EX3). destruct I.
    assert (RU : forall t' j r', upd (running s) t None t' = Some (j, r') -> t' <> t /\ running s t' = Some (j, r')).
    { intros t' j r'. destruct (Nat.eq_dec t' t) as [->|N]; [rewrite upd_same; discriminate|]. rewrite upd_other by auto. auto. }
    constructor; cbn [mainq bufs tlocal running waiting pexc]; auto.
    + intros t' j r' E. apply RU in E. destruct E as [N E]. rewrite upd_other by auto. eauto.
    + intros t1 t2 j r1 r2 E1 E2. apply RU in E1, E2. destruct E1, E2. eauto.
    + intros j LJ NW NR. destruct (Nat.eq_dec j i) as [->|NJ].
      * rewrite IT. auto.
      * destruct (pi_done0 j LJ NW) as [D1 D2]; [|auto]. intros t' r' E. destruct (Nat.eq_dec t' t) as [->|N]; [congruence|].
        apply (NR t' r'). now rewrite upd_other by auto.
    + intros t'. destruct (Nat.eq_dec t' t) as [->|N]; [now rewrite !upd_same|]. rewrite !upd_other by auto. auto.
    + intros j E. destruct (EX3 _ E) as [E1|[-> E1]]; auto.
  - (* a call *)
    destruct (pi_run _ _ _ I _ _ _ RT) as (W & IT & TL & LT). unfold enqueue in H. rewrite TL in H. injection H as <-. destruct I.
    assert (RU : forall t' j r', upd (running s) t (Some (i, r)) t' = Some (j, r') ->
       (t' = t /\ j = i /\ r' = r) \/ (t' <> t /\ j <> i /\ running s t' = Some (j, r'))).
    { intros t' j r'. destruct (Nat.eq_dec t' t) as [->|N]; [rewrite upd_same; intros [= <- <-]; auto|]. rewrite upd_other by auto. intros E.
      right. split; [exact N|]. split; [|exact E]. intros ->. apply N. eauto. }
    constructor; cbn [mainq bufs tlocal running waiting pexc]; auto.
    + intros j J. destruct (Nat.eq_dec j i) as [->|N]; [contradiction|]. rewrite upd_other by auto. auto.
    + intros t' j r' E. destruct (RU _ _ _ E) as [(-> & -> & ->)|(N & NJ & E')].
      * split; [exact W|]. rewrite upd_same, <- app_assoc. auto.
      * rewrite upd_other by auto. eauto.
    + intros t1 t2 j r1 r2 E1 E2. destruct (RU _ _ _ E1) as [(-> & -> & ->)|(N & NJ & E')]; destruct (RU _ _ _ E2) as [(-> & Q & ->)|(N' & NJ' & E'')]; try congruence. eauto.
    + intros j LJ NW NR. assert (NJ : j <> i) by (intros ->; apply (NR t r); apply upd_same). rewrite upd_other by auto. apply pi_done0; auto.
      intros t' r' E. destruct (Nat.eq_dec t' t) as [->|N]; [congruence|]. apply (NR t' r'). now rewrite upd_other by auto.
    + intros t'. destruct (Nat.eq_dec t' t) as [->|N]; [rewrite upd_same; discriminate|]. rewrite upd_other by auto. auto.
  - (* a task is taken *)
    destruct (nth_error (waiting s) c) as [i|] eqn:WC; [|discriminate]. destruct (nth_error tasks i) as [k|] eqn:TK; [|discriminate].
    injection H as <-. destruct I. pose proof (nth_cut _ _ _ WC) as CUT.
    assert (ND : NoDup (firstn c (waiting s) ++ skipn (S c) (waiting s)) /\ ~ In i (firstn c (waiting s) ++ skipn (S c) (waiting s))).
    { rewrite CUT in pi_nodup0. apply NoDup_remove in pi_nodup0. exact pi_nodup0. }
    assert (WI : forall j, In j (waiting s) <-> j = i \/ In j (firstn c (waiting s) ++ skipn (S c) (waiting s))).
    { intros j. rewrite CUT at 1. rewrite !in_app_iff. cbn. intuition. }
    assert (IW : In i (waiting s)) by (eapply nth_error_In; eauto).
    set (w := firstn c (waiting s) ++ skipn (S c) (waiting s)) in *. destruct ND as [ND NI].
    assert (RU : forall t' j r', upd (running s) t (Some (i, t_items k)) t' = Some (j, r') ->
       (t' = t /\ j = i /\ r' = t_items k) \/ (t' <> t /\ j <> i /\ running s t' = Some (j, r'))).
    { intros t' j r'. destruct (Nat.eq_dec t' t) as [->|N]; [rewrite upd_same; intros [= <- <-]; auto|]. rewrite upd_other by auto. intros E.
      right. split; [exact N|]. split; [|exact E]. intros ->. destruct (pi_run0 _ _ _ E) as [Q _]. contradiction. }
    constructor; cbn [mainq bufs tlocal running waiting pexc]; auto.
    + intros j J. apply pi_lt0. apply WI. auto.
    + intros j J. apply pi_wait0. apply WI. auto.
    + intros t' j r' E. destruct (RU _ _ _ E) as [(-> & -> & ->)|(N & NJ & E')].
      * split; [exact NI|]. rewrite (pi_wait0 i IW), upd_same. unfold item_of. rewrite TK. auto.
      * destruct (pi_run0 _ _ _ E') as (A & B & C & D). rewrite upd_other by auto. split; [|auto]. intros Q. apply A. apply WI. auto.
    + intros t1 t2 j r1 r2 E1 E2. destruct (RU _ _ _ E1) as [(-> & -> & ->)|(N & NJ & E')]; destruct (RU _ _ _ E2) as [(-> & Q & ->)|(N' & NJ' & E'')]; try congruence. eauto.
    + intros j LJ NW NR. assert (NJ : j <> i) by (intros ->; apply (NR t (t_items k)); apply upd_same). apply pi_done0; auto.
      * intros Q. apply WI in Q. tauto.
      * intros t' r' E. destruct (Nat.eq_dec t' t) as [->|N]; [congruence|]. apply (NR t' r'). now rewrite upd_other by auto.
    + intros t'. destruct (Nat.eq_dec t' t) as [->|N]; [rewrite upd_same; discriminate|]. rewrite !upd_other by auto. auto.
Qed.

Lemma PI_exec tasks q : forall sched s s', PI tasks q s -> pexec tasks sched s = Some s' -> PI tasks q s'.
Proof.
  induction sched as [|x r IH]; intros s s' I H; cbn [pexec] in H; [now injection H as <-|].
  destruct (pstep tasks x s) as [s1|] eqn:E; [|discriminate]. eapply IH; [|exact H]. eapply PI_step; eauto.
Qed.

Lemma item_of_flat tasks : flat_map (item_of tasks) (seq 0 (length tasks)) = flat_map t_items tasks.
Proof.
  assert (G : forall l k, (forall i, nth_error l i = nth_error tasks (k + i)) ->
    flat_map (item_of tasks) (seq k (length l)) = flat_map t_items l).
  { induction l as [|x l IH]; intros k H; [reflexivity|]. cbn [length seq flat_map]. unfold item_of at 1.
    specialize (H 0) as H0. rewrite Nat.add_0_r in H0. rewrite <- H0. cbn [nth_error]. f_equal. apply IH.
    intros i. specialize (H (S i)). cbn in H. rewrite H. f_equal. lia. }
  apply G. reflexivity.
Qed.

Lemma drain_go : forall l (q : list pend) (b : nat -> list pend) c, NoDup l ->
  exists b', fold_left (fun x i => let '(q, b, c) := x in (q ++ b i, upd b i [], c + length (b i))) l (q, b, c)
   = (q ++ flat_map b l, b', c + length (flat_map b l)) /\
   (forall i, In i l -> b' i = []) /\ (forall i, ~ In i l -> b' i = b i).
Proof.
  induction l as [|i l IH]; intros q b c ND; cbn [fold_left flat_map].
  - exists b. cbn. rewrite app_nil_r, Nat.add_0_r. split; [reflexivity|]. split; [intros i []|auto].
  - inversion ND as [|? ? NI ND']; subst. destruct (IH (q ++ b i) (upd b i []) (c + length (b i)) ND') as (b' & E & H1 & H2).
    exists b'. rewrite E. assert (F : flat_map (upd b i []) l = flat_map b l).
    { clear - NI. induction l as [|j l IH]; [reflexivity|]. cbn in *. rewrite upd_other by tauto. now rewrite IH by tauto. }
    rewrite F, app_length. split; [now rewrite <- !app_assoc, Nat.add_assoc|]. split.
    + intros j [<-|J]; [|auto]. destruct (in_dec Nat.eq_dec i l); [auto|]. rewrite H2 by assumption. apply upd_same.
    + intros j NJ. rewrite H2 by (cbn in NJ; tauto). apply upd_other. cbn in NJ. intuition.
Qed.

Lemma phase2_done tasks q sched s : pexec tasks sched (pinit q tasks) = Some s -> pdone s ->
  exists b', drain (length tasks) s = (q ++ flat_map t_items tasks, b', length (flat_map t_items tasks)) /\
    (forall i, i < length tasks -> b' i = []) /\
    (pexc s = None -> forall k, In k tasks -> t_throws k = false) /\
    (forall i, pexc s = Some i -> exists k, nth_error tasks i = Some k /\ t_throws k = true).
Proof.
  intros E [W R]. pose proof (PI_exec _ _ _ _ _ (PI_init tasks q) E) as I. destruct I.
  assert (D : forall i, i < length tasks -> bufs s i = item_of tasks i /\ (throws_of tasks i = true -> pexc s <> None)).
  { intros i L. apply pi_done0; [exact L|rewrite W; intros []|]. intros t r. rewrite R. discriminate. }
  unfold drain. destruct (drain_go (seq 0 (length tasks)) (mainq s) (bufs s) 0 (seq_NoDup _ _)) as (b' & E' & H1 & H2).
  assert (F : flat_map (bufs s) (seq 0 (length tasks)) = flat_map t_items tasks).
  { rewrite <- item_of_flat. assert (G : forall l, (forall i, In i l -> i < length tasks) -> flat_map (bufs s) l = flat_map (item_of tasks) l).
    { induction l as [|i l IH]; intros H; [reflexivity|]. cbn. rewrite (proj1 (D i (H i (or_introl eq_refl)))). now rewrite IH by (intros; apply H; now right). }
    apply G. intros i J. apply in_seq in J. lia. }
  rewrite F in E'. exists b'. rewrite E', pi_main0. split; [reflexivity|]. split; [|split].
  - intros i L. apply H1. apply in_seq. lia.
  - intros N k J. destruct (t_throws k) eqn:T; [|reflexivity]. apply In_nth_error in J. destruct J as [i J].
    assert (L : i < length tasks) by (apply nth_error_Some; congruence). exfalso. apply (proj2 (D i L)); [|exact N].
    unfold throws_of. now rewrite J.
  - intros i Ei. destruct (pi_exc0 i Ei) as [T L]. unfold throws_of in T. destruct (nth_error tasks i) as [k|]; [eauto|discriminate].
Qed.

Lemma phase2_stuck tasks q sched s : pexec tasks sched (pinit q tasks) = Some s ->
  (forall tc, pstep tasks tc s = None) -> pdone s.
Proof.
  intros E ST. pose proof (PI_exec _ _ _ _ _ (PI_init tasks q) E) as I.
  assert (R : forall t, running s t = None).
  { intros t. specialize (ST (t, 0)). unfold pstep in ST. destruct (running s t) as [[i [|p r]]|]; [discriminate| |reflexivity].
    destruct (enqueue s t p). discriminate. }
  split; [|exact R]. destruct (waiting s) as [|i w] eqn:W; [reflexivity|]. exfalso.
  specialize (ST (0, 0)). unfold pstep in ST. rewrite R, W in ST. cbn [nth_error] in ST.
  assert (L : i < length tasks) by (apply (pi_lt _ _ _ I); rewrite W; now left).
  apply nth_error_Some in L. destruct (nth_error tasks i); [discriminate|congruence].
Qed.

Lemma phase2_seq_spec : forall tasks i q, (forall k, In k tasks -> t_throws k = false) ->
  phase2_seq i tasks q = inr (q ++ flat_map t_items tasks).
Proof.
  induction tasks as [|k r IH]; intros i q H; cbn [phase2_seq flat_map]; [now rewrite app_nil_r|].
  rewrite (H k) by now left. rewrite IH by (intros; apply H; now right). now rewrite app_assoc.
Qed.
Lemma phase2_seq_throws : forall tasks i q k, In k tasks -> t_throws k = true -> exists j, phase2_seq i tasks q = inl j.
Proof.
  induction tasks as [|k r IH]; intros i q k0 I0 T; [destruct I0|]; destruct I0 as [<-|I]; cbn [phase2_seq].
  - rewrite T. eauto.
  - destruct (t_throws k); [eauto|]. eapply IH; eauto.
Qed.

Lemma inter_bits a b : match intersection a b with
  | Some r => forall i, bit_in r i <-> bit_in a i /\ bit_in b i
  | None => forall i, ~ (bit_in a i /\ bit_in b i)
  end.
Proof.
  unfold intersection, overlaps, bit_in, lower, upper.
  destruct (Z.leb_spec (Z.min (rleft a) (rright a)) (Z.max (rleft b) (rright b)));
  destruct (Z.leb_spec (Z.min (rleft b) (rright b)) (Z.max (rleft a) (rright a))); cbn [andb rleft rright]; intros; lia.
Qed.
