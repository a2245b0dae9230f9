(** Proofs about the queries. *)
From Coq Require Import Ascii String Sorting.Sorted.
From Verif Require Import Base M_Graph S_Graph P_Graph S_Reach M_Range M_Netlist S_Netlist
  M_DFS P_DFS M_Path P_Path M_Query S_Query.
Local Open Scope Z_scope.
Notation length := List.length.

Lemma inrange_iff b r : InRange b r <-> lower r <= b <= upper r.
Proof. unfold InRange, lower, upper. lia. Qed.

Lemma overlaps_iff a b : overlaps a b = true <-> exists x, InRange x a /\ InRange x b.
Proof.
  unfold overlaps. rewrite andb_true_iff, !Z.leb_le. split.
  - intros H. exists (Z.max (lower a) (lower b)). rewrite !inrange_iff. unfold lower, upper in *. lia.
  - intros (x & H1 & H2). rewrite inrange_iff in *. lia.
Qed.

(** ** C17, C18 *)
Lemma idx_get_mk nl name :
  idx_get (mk_index nl) name =
  filter (fun n => match npath (ninf nl n) with Some p => str_eqb p name | None => false end)
         (gnodes (ng nl)).
Proof.
  unfold idx_get, mk_index. induction (gnodes (ng nl)) as [|n l IH]; [reflexivity|].
  cbn [flat_map filter]. rewrite filter_app', map_app, IH.
  destruct (npath (ninf nl n)) as [p|]; [|reflexivity]. simpl.
  destruct (str_eqb p name); reflexivity.
Qed.

Definition named nl name n : bool :=
  match npath (ninf nl n) with Some p => str_eqb p name | None => false end.
Lemma named_iff nl name n : named nl name n = true <-> npath (ninf nl n) = Some name.
Proof.
  unfold named. destruct (npath (ninf nl n)) as [p|].
  - rewrite str_eqb_eq. split; congruence.
  - split; discriminate.
Qed.

Lemma hd_filter_spec {A} (f : A -> bool) l :
  match hd_error (filter f l) with
  | Some x => exists l1 l2, l = l1 ++ x :: l2 /\ f x = true /\ forall y, In y l1 -> f y = false
  | None => forall y, In y l -> f y = false
  end.
Proof.
  induction l as [|x l IH]; simpl; [tauto|]. destruct (f x) eqn:E; simpl.
  - exists [], l. simpl. tauto.
  - destruct (hd_error (filter f l)) as [y|].
    + destruct IH as (l1 & l2 & -> & Hy & H). exists (x :: l1), l2. repeat split; auto.
      intros z [<-|Hz]; auto.
    + intros y [<-|Hy]; auto.
Qed.

Lemma lookup_fresh nl name :
  match lookup_idx (mk_index nl) name with
  | Some n => exists l1 l2, gnodes (ng nl) = l1 ++ n :: l2 /\ npath (ninf nl n) = Some name /\
                forall m, In m l1 -> npath (ninf nl m) <> Some name
  | None => forall m, In m (gnodes (ng nl)) -> npath (ninf nl m) <> Some name
  end.
Proof.
  unfold lookup_idx. rewrite idx_get_mk. fold (named nl name).
  pose proof (hd_filter_spec (named nl name) (gnodes (ng nl))) as H.
  change (fun n => match npath (ninf nl n) with Some p => str_eqb p name | None => false end)
    with (named nl name).
  assert (K : forall m, named nl name m = false -> npath (ninf nl m) <> Some name).
  { intros m Hm E. apply named_iff in E. congruence. }
  destruct (hd_error _) as [n|].
  - destruct H as (l1 & l2 & E & Hn & H). exists l1, l2. rewrite named_iff in Hn. repeat split; auto.
  - intros m Hm. auto.
Qed.

Lemma lookup_range_fresh nl name b :
  let res := lookup_range_idx nl (mk_index nl) name b in
  (exists f, res = filter f (gnodes (ng nl))) /\
  forall n, In n res <->
    In n (gnodes (ng nl)) /\ npath (ninf nl n) = Some name /\
    exists r x, nbounds (ninf nl n) = Some r /\ InRange x r /\ InRange x b.
Proof.
  intros res. unfold res, lookup_range_idx. rewrite idx_get_mk.
  change (fun n => match npath (ninf nl n) with Some p => str_eqb p name | None => false end)
    with (named nl name).
  rewrite filter_filter. split; [eexists; reflexivity|].
  intros n. rewrite filter_In, andb_true_iff, named_iff.
  destruct (nbounds (ninf nl n)) as [r|].
  - rewrite overlaps_iff. split.
    + intros (H1 & H2 & x & H3 & H4). repeat split; auto. exists r, x. auto.
    + intros (H1 & H2 & r' & x & E & H3 & H4). injection E as <-. repeat split; auto. exists x. auto.
  - split; [intros (_ & _ & H); discriminate|]. intros (_ & _ & r' & x & E & _). discriminate.
Qed.

Lemma c17 q name b : qidx q = None ->
  (match snd (lookup q name) with
   | Some n => exists l1 l2, gnodes (ng (qnl q)) = l1 ++ n :: l2 /\
                 npath (ninf (qnl q) n) = Some name /\
                 forall m, In m l1 -> npath (ninf (qnl q) m) <> Some name
   | None => forall m, In m (gnodes (ng (qnl q))) -> npath (ninf (qnl q) m) <> Some name
   end) /\
  (exists f, snd (lookup_range q name b) = filter f (gnodes (ng (qnl q)))) /\
  (forall n, In n (snd (lookup_range q name b)) <->
    In n (gnodes (ng (qnl q))) /\ npath (ninf (qnl q) n) = Some name /\
    exists r x, nbounds (ninf (qnl q) n) = Some r /\ InRange x r /\ InRange x b).
Proof.
  intros H. unfold lookup, lookup_range, buildIndex. rewrite H. simpl.
  split; [apply lookup_fresh|apply lookup_range_fresh].
Qed.

(** Lookups after the last mutation. *)
Definition Fresh (q : qgraph) : Prop := qidx q = None \/ qidx q = Some (mk_index (qnl q)).

Lemma lookup_is_fresh q name : Fresh q ->
  Fresh (fst (lookup q name)) /\ qnl (fst (lookup q name)) = qnl q /\
  snd (lookup q name) = lookup_idx (mk_index (qnl q)) name.
Proof.
  unfold Fresh, lookup, buildIndex. intros [H|H]; rewrite H; simpl; auto.
Qed.

Definition is_mut (o : qop) : Prop := match o with QLookup _ => False | _ => True end.
Definition is_lookup (o : qop) : Prop := match o with QLookup _ => True | _ => False end.

Lemma mut_no_index os q q' rs : Forall is_mut os -> qidx q = None ->
  q_run q os = Some (q', rs) -> qidx q' = None.
Proof.
  intros H. revert q rs. induction H as [|o os Ho _ IH]; intros q rs Hq; simpl.
  - intros E. injection E as <- <-. exact Hq.
  - destruct o as [inf|n|s]; simpl in *; [| |tauto].
    + match goal with |- match q_run ?x _ with _ => _ end = _ -> _ =>
        assert (Hx : qidx x = None) by exact Hq; destruct (q_run x os) as [[q2 l]|] eqn:E; [|discriminate] end.
      intros K. injection K as <- <-. eapply IH; eauto.
    + unfold q_removeNode. destruct (removeNode (ng (qnl q)) n) as [[g' bb]|]; simpl; [|discriminate].
      match goal with |- match q_run ?x _ with _ => _ end = _ -> _ =>
        assert (Hx : qidx x = None) by exact Hq; destruct (q_run x os) as [[q2 l]|] eqn:E; [|discriminate] end.
      intros K. injection K as <- <-. eapply IH; eauto.
Qed.

Lemma lookups_answers names : forall q, Fresh q ->
  exists q', q_run q (map QLookup names) = Some (q', map (lookup_idx (mk_index (qnl q))) names) /\
    qnl q' = qnl q.
Proof.
  induction names as [|s names IH]; intros q Hq; simpl; [eauto|].
  destruct (lookup_is_fresh q s Hq) as (F & E1 & E2).
  destruct (lookup q s) as [q1 a]. simpl in *.
  destruct (IH q1 F) as (q' & R & N). rewrite R. exists q'. rewrite E1, E2 in *. auto.
Qed.

Lemma c18 os names q rs : Forall is_mut os -> q_run q_empty os = Some (q, rs) ->
  exists q' ans, q_run q (map QLookup names) = Some (q', ans) /\ qnl q' = qnl q /\
   Forall2 (fun name a => match a with
     | Some n => In n (gnodes (ng (qnl q))) /\ npath (ninf (qnl q) n) = Some name
     | None => forall m, In m (gnodes (ng (qnl q))) -> npath (ninf (qnl q) m) <> Some name
     end) names ans.
Proof.
  intros Hm Hr. pose proof (mut_no_index os q_empty q rs Hm eq_refl Hr) as Hi.
  destruct (lookups_answers names q (or_introl Hi)) as (q' & R & N).
  exists q'. eexists. split; [exact R|]. split; [exact N|]. clear.
  induction names as [|s names IH]; simpl; constructor; auto.
  pose proof (lookup_fresh (qnl q) s) as H. destruct (lookup_idx _ s) as [n|]; [|exact H].
  destruct H as (l1 & l2 & E & Hp & _). split; [|exact Hp]. rewrite E. apply in_app_iff. right. now left.
Qed.

(** ** C19 *)
Lemma sym_is_iff nl name e : sym_is nl name e = true <-> asym (eatt nl (eid e)) = Some name.
Proof.
  unfold sym_is. destruct (asym _) as [s|].
  - rewrite str_eqb_eq. split; congruence.
  - split; discriminate.
Qed.

Lemma edges_of_iff nl name e : In e (edges_of nl name) <->
  exists d, In d (gnodes (ng nl)) /\ In e (outs (nst (ng nl) d)) /\ asym (eatt nl (eid e)) = Some name.
Proof.
  unfold edges_of. rewrite in_flat_map. split; intros (d & H1 & H2); exists d; revert H2;
    rewrite filter_In, sym_is_iff; tauto.
Qed.

Lemma intersection_spec a b :
  match intersection a b with
  | Some r => (forall x, InRange x r <-> InRange x a /\ InRange x b) /\
              rleft r <= rright r /\ exists x, InRange x r
  | None => forall x, ~ (InRange x a /\ InRange x b)
  end.
Proof.
  unfold intersection, overlaps.
  destruct (Z.leb_spec (lower a) (upper b)); destruct (Z.leb_spec (lower b) (upper a)); simpl;
    try (intros x; rewrite !inrange_iff; lia).
  assert (L : Z.max (lower a) (lower b) <= Z.min (upper a) (upper b)) by (unfold lower, upper in *; lia).
  split; [|split].
  - intros x. rewrite (inrange_iff x a), (inrange_iff x b). unfold InRange. simpl.
    split; [intros [Hx|Hx]; lia|]. intros Hx. left. lia.
  - exact L.
  - exists (Z.max (lower a) (lower b)). left. simpl. lia.
Qed.

Definition raw_bd (nl : netlist) (name : str) (b : range) : list bd :=
  flat_map (fun e => match intersection (ebounds nl e) b with
                     | Some r => [(r, esrc e)] | None => [] end) (edges_of nl name).

Lemma raw_bd_iff nl name b r d : In (r, d) (raw_bd nl name b) <->
  exists e, In e (edges_of nl name) /\ esrc e = d /\ intersection (ebounds nl e) b = Some r.
Proof.
  unfold raw_bd. rewrite in_flat_map. split.
  - intros (e & H1 & H2). exists e. destruct (intersection (ebounds nl e) b) as [r'|]; [|destruct H2].
    destruct H2 as [H2|[]]. injection H2 as -> <-. auto.
  - intros (e & H1 & <- & H2). exists e. rewrite H2. split; [assumption|now left].
Qed.

Lemma bd_insert_in addr x l y : In y (bd_insert addr x l) <-> y = x \/ In y l.
Proof.
  induction l as [|z l IH]; cbn [bd_insert]; [simpl; intuition|].
  destruct (key_ltb _ _); cbn [In]; rewrite ?IH; intuition.
Qed.
Lemma bd_sort_in addr l y : In y (bd_sort addr l) <-> In y l.
Proof.
  unfold bd_sort. induction l as [|x l IH]; simpl; [tauto|]. rewrite bd_insert_in, IH. intuition.
Qed.

Lemma key_ltb_trans a b c : key_ltb a b = true -> key_ltb b c = true -> key_ltb a c = true.
Proof.
  destruct a as [[a1 a2] a3], b as [[b1 b2] b3], c as [[c1 c2] c3]. simpl.
  repeat rewrite ?orb_true_iff, ?andb_true_iff, ?Z.ltb_lt, ?Z.eqb_eq, ?Nat.ltb_lt. lia.
Qed.
Lemma key_total a b : key_ltb a b = false -> key_ltb b a = false -> key_eqb a b = true.
Proof.
  destruct a as [[a1 a2] a3], b as [[b1 b2] b3]. simpl. intros H1 H2.
  repeat rewrite ?orb_false_iff, ?andb_false_iff, ?Z.ltb_ge, ?Z.eqb_neq, ?Nat.ltb_ge in *.
  repeat rewrite ?andb_true_iff, ?Z.eqb_eq, ?Nat.eqb_eq. lia.
Qed.
Lemma key_eqb_eq a b : key_eqb a b = true <-> a = b.
Proof.
  destruct a as [[a1 a2] a3], b as [[b1 b2] b3]. simpl.
  repeat rewrite ?andb_true_iff, ?Z.eqb_eq, ?Nat.eqb_eq.
  split; [intros [[-> ->] ->]; reflexivity|]. intros H. injection H as -> -> ->. auto.
Qed.
Lemma key_ltb_irrefl a : key_ltb a a = false.
Proof.
  destruct a as [[a1 a2] a3]. simpl. rewrite !Z.ltb_irrefl, Nat.ltb_irrefl, !andb_false_r. reflexivity.
Qed.

Definition kle addr (x y : bd) : Prop := key_ltb (bd_key addr y) (bd_key addr x) = false.
Definition klt addr (x y : bd) : Prop := key_ltb (bd_key addr x) (bd_key addr y) = true.

Lemma kle_trans addr x y z : kle addr x y -> kle addr y z -> kle addr x z.
Proof.
  unfold kle. intros H1 H2. destruct (key_ltb (bd_key addr z) (bd_key addr x)) eqn:E; [|reflexivity].
  destruct (key_ltb (bd_key addr x) (bd_key addr y)) eqn:F.
  - rewrite (key_ltb_trans _ _ _ E F) in H2. discriminate.
  - pose proof (key_total _ _ F H1) as K. apply key_eqb_eq in K. congruence.
Qed.

Lemma bd_insert_sorted addr x l : StronglySorted (kle addr) l -> StronglySorted (kle addr) (bd_insert addr x l).
Proof.
  induction l as [|y l IH]; intros H; cbn [bd_insert]; [repeat constructor|].
  inversion H as [|? ? H1 H2]; subst. destruct (key_ltb (bd_key addr y) (bd_key addr x)) eqn:E.
  - constructor; [auto|]. rewrite Forall_forall in *. intros z Hz. apply bd_insert_in in Hz.
    destruct Hz as [->|Hz]; [|auto]. unfold kle.
    destruct (key_ltb (bd_key addr x) (bd_key addr y)) eqn:F; [|reflexivity].
    pose proof (key_ltb_trans _ _ _ E F) as K. rewrite key_ltb_irrefl in K. discriminate.
  - constructor; [assumption|]. constructor; [exact E|].
    rewrite Forall_forall in *. intros z Hz. apply kle_trans with y; [exact E|auto].
Qed.
Lemma bd_sort_sorted addr l : StronglySorted (kle addr) (bd_sort addr l).
Proof. unfold bd_sort. induction l; simpl; [constructor|now apply bd_insert_sorted]. Qed.

(** Entries in play have normalised ranges, and addresses are distinct. *)
Definition Norm (x : bd) : Prop := rleft (fst x) <= rright (fst x).
Lemma key_inj addr x y : (forall a b, addr a = addr b -> a = b) -> Norm x -> Norm y ->
  bd_key addr x = bd_key addr y -> x = y.
Proof.
  intros Hi. destruct x as [[l1 r1] d1], y as [[l2 r2] d2]. unfold Norm, bd_key, lower, upper. simpl.
  intros H1 H2 E. injection E as E1 E2 E3. apply Hi in E3. subst. f_equal. f_equal; lia.
Qed.

Lemma bd_unique_spec addr l last :
  StronglySorted (kle addr) (last :: l) ->
  StronglySorted (klt addr) (last :: bd_unique_from addr last l) /\
  (forall y, In y (bd_unique_from addr last l) -> In y l) /\
  (forall y, In y l -> exists z, In z (last :: bd_unique_from addr last l) /\ bd_key addr z = bd_key addr y).
Proof.
  revert last. induction l as [|y l IH]; intros last H; cbn [bd_unique_from].
  - split; [repeat constructor|]. split; intros z [].
  - inversion H as [|? ? H1 H2]; subst. inversion H1 as [|? ? H3 H4]; subst.
    rewrite Forall_forall in H2.
    destruct (key_eqb (bd_key addr last) (bd_key addr y)) eqn:E.
    + apply key_eqb_eq in E. destruct (IH last) as (A & B & C).
      { constructor; [assumption|]. rewrite Forall_forall. intros z Hz. apply H2. now right. }
      split; [exact A|]. split; [intros z Hz; right; auto|]. intros z [<-|Hz]; [|auto]. exists last. split; [now left|assumption].
    + destruct (IH y H1) as (A & B & C).
      assert (L : klt addr last y).
      { unfold klt. destruct (key_ltb (bd_key addr last) (bd_key addr y)) eqn:F; [reflexivity|].
        pose proof (H2 y (or_introl eq_refl)) as G. unfold kle in G.
        rewrite (key_total _ _ F G) in E. discriminate. }
      split; [|split].
      * constructor; [exact A|]. inversion A as [|? ? A1 A2]; subst. constructor; [exact L|].
        rewrite Forall_forall in *. intros z Hz. eapply key_ltb_trans; [exact L|apply A2, Hz].
      * intros z [<-|Hz]; [now left|right; auto].
      * intros z [<-|Hz]; [exists y; split; [right; now left|reflexivity]|].
        destruct (C z Hz) as (w & Hw & Ew). exists w. split; [now right|assumption].
Qed.

Lemma bd_result addr l : (forall a b, addr a = addr b -> a = b) -> (forall x, In x l -> Norm x) ->
  let res := bd_unique addr (bd_sort addr l) in
  StronglySorted (klt addr) res /\ (forall x, In x res <-> In x l).
Proof.
  intros Hi Hn res. unfold res. pose proof (bd_sort_sorted addr l) as HS.
  assert (HI : forall x, In x (bd_sort addr l) <-> In x l) by apply bd_sort_in.
  destruct (bd_sort addr l) as [|x r]; simpl.
  - split; [constructor|]. intros x. rewrite <- HI. reflexivity.
  - destruct (bd_unique_spec addr r x HS) as (A & B & C). split; [exact A|].
    intros y. split.
    + intros [<-|Hy]; apply HI; [now left|right; auto].
    + intros Hy. apply HI in Hy. destruct Hy as [<-|Hy]; [now left|].
      destruct (C y Hy) as (z & Hz & Ez). apply key_inj in Ez; auto.
      * subst. exact Hz.
      * apply Hn, HI. destruct Hz as [<-|Hz]; [now left|right; auto].
      * apply Hn, HI. now right.
Qed.

Lemma keep_first_spec : forall l seen,
  NoDup (keep_first seen l) /\ forall x, In x (keep_first seen l) <-> In x l /\ ~ In x seen.
Proof.
  induction l as [|x l IH]; intros seen; simpl; [split; [constructor|tauto]|].
  destruct (mem x seen) eqn:M.
  - apply mem_In in M. destruct (IH seen) as [A B]. split; [exact A|]. intros y. rewrite B.
    split; [tauto|]. intros [[<-|H] K]; tauto.
  - apply mem_false in M. destruct (IH (x :: seen)) as [A B]. split.
    + constructor; [|exact A]. rewrite B. simpl. tauto.
    + intros y. simpl. rewrite B. simpl. split; [intuition congruence|].
      intros [[<-|H] K]; [tauto|]. destruct (Nat.eq_dec x y) as [->|]; [tauto|]. right. tauto.
Qed.

Lemma getDrivers_spec nl name q : WF nl ->
  NoDup (getDrivers nl name q) /\
  forall d, In d (getDrivers nl name q) <-> exists b, InRange b q /\ DrivesBit nl name d b.
Proof.
  intros W. unfold getDrivers. destruct (keep_first_spec
    (map esrc (filter (fun e => overlaps (ebounds nl e) q) (edges_of nl name))) []) as [A B].
  split; [exact A|]. intros d. rewrite B, in_map_iff. split.
  - intros [(e & <- & He) _]. apply filter_In in He. destruct He as [He Ho].
    apply overlaps_iff in Ho. destruct Ho as (x & H1 & H2). exists x. split; [assumption|].
    apply edges_of_iff in He. destruct He as (d & Hd & He & Hs).
    destruct (mir_out _ W d e He) as (-> & _). exists e. auto.
  - intros (b & Hb & e & Hd & He & Hs & Hx). split; [|tauto]. exists e.
    destruct (mir_out _ W d e He) as (-> & _). split; [reflexivity|].
    apply filter_In. split; [apply edges_of_iff; eauto|]. apply overlaps_iff. exists b. auto.
Qed.

Lemma NoDup_of_klt addr l : StronglySorted (klt addr) l -> NoDup l.
Proof.
  induction 1 as [|x l H IH HF]; constructor; auto. intros K. rewrite Forall_forall in HF.
  specialize (HF x K). unfold klt in HF. rewrite key_ltb_irrefl in HF. discriminate.
Qed.

Lemma ss_weaken {A} (R Q : A -> A -> Prop) l : (forall x y, R x y -> Q x y) ->
  StronglySorted R l -> StronglySorted Q l.
Proof.
  intros H. induction 1 as [|x l _ IH HF]; constructor; auto.
  rewrite Forall_forall in *. auto.
Qed.

Lemma c19 addr nl name q : WF nl -> (forall a b, addr a = addr b -> a = b) ->
  let res := getBitDrivers addr nl name q in
  (forall d b, (exists r, In (r, d) res /\ InRange b r) <-> DrivesBit nl name d b /\ InRange b q) /\
  (forall r d b, In (r, d) res -> InRange b r -> InRange b q) /\
  (forall r d, In (r, d) res -> exists b, InRange b r) /\
  StronglySorted (fun x y => lower (fst x) <= lower (fst y)) res /\
  NoDup res /\
  (forall d, In d (map snd res) <-> In d (getDrivers nl name q)).
Proof.
  intros W Hi res.
  assert (HR : StronglySorted (klt addr) res /\ forall x, In x res <-> In x (raw_bd nl name q)).
  { apply (bd_result addr (raw_bd nl name q) Hi). intros [r d] Hx. apply raw_bd_iff in Hx.
    destruct Hx as (e & _ & _ & E). pose proof (intersection_spec (ebounds nl e) q) as K.
    rewrite E in K. apply K. }
  destruct HR as [HS HI].
  assert (H1 : forall d b, (exists r, In (r, d) res /\ InRange b r) <-> DrivesBit nl name d b /\ InRange b q).
  { intros d b. split.
    - intros (r & Hr & Hb). apply HI, raw_bd_iff in Hr. destruct Hr as (e & He & <- & E).
      pose proof (intersection_spec (ebounds nl e) q) as K. rewrite E in K.
      apply K in Hb. destruct Hb as [Hb1 Hb2]. split; [|assumption].
      apply edges_of_iff in He. destruct He as (d & Hd & He & Hs).
      destruct (mir_out _ W d e He) as (-> & _). exists e. auto.
    - intros [(e & Hd & He & Hs & Hx) Hq].
      pose proof (intersection_spec (ebounds nl e) q) as K.
      destruct (intersection (ebounds nl e) q) as [r|] eqn:E; [|exfalso; apply (K b); auto].
      exists r. split; [|apply K; auto]. apply HI, raw_bd_iff. exists e.
      destruct (mir_out _ W d e He) as (-> & _). repeat split; auto. apply edges_of_iff. eauto. }
  assert (H3 : forall r d, In (r, d) res -> exists b, InRange b r).
  { intros r d Hr. apply HI, raw_bd_iff in Hr. destruct Hr as (e & He & <- & E).
    pose proof (intersection_spec (ebounds nl e) q) as K. rewrite E in K. apply K. }
  split; [exact H1|]. split.
  { intros r d b Hr Hb. destruct (proj1 (H1 d b)) as [_ K]; [eauto|exact K]. }
  split; [exact H3|]. split; [|split].
  - eapply ss_weaken; [|exact HS]. intros [r1 d1] [r2 d2]. unfold klt, bd_key. simpl.
    repeat rewrite ?orb_true_iff, ?andb_true_iff, ?Z.ltb_lt, ?Z.eqb_eq, ?Nat.ltb_lt. lia.
  - eapply NoDup_of_klt, HS.
  - intros d. destruct (getDrivers_spec nl name q W) as [_ HD]. rewrite HD, in_map_iff. split.
    + intros ([r d'] & <- & Hr). simpl. destruct (H3 _ _ Hr) as (b & Hb).
      destruct (proj1 (H1 d' b)) as [Hd Hq]; [eauto|]. eauto.
    + intros (b & Hq & Hd). destruct (proj2 (H1 d b)) as (r & Hr & _); [auto|]. exists (r, d). auto.
Qed.

(** ** C20 *)
Lemma sens_eqb_eq a b : sens_eqb a b = true <-> a = b.
Proof.
  destruct a as [a1 a2], b as [b1 b2]. unfold sens_eqb. simpl.
  rewrite andb_true_iff, Nat.eqb_eq, edgekind_eqb_eq. split; [intros [-> ->]; reflexivity|].
  intros H. injection H as -> ->. auto.
Qed.

Lemma collect_spec nl : forall es res, NoDup res ->
  let r := fold_left (collect_edge nl) es res in
  NoDup r /\ forall x, In x r <-> In x res \/
    exists e, In e es /\ esrc e = fst x /\ akind (eatt nl (eid e)) = snd x /\ snd x <> EKNone /\
              adis (eatt nl (eid e)) = false.
Proof.
  induction es as [|e es IH]; intros res Hnd; simpl.
  - split; [assumption|]. intros x. split; [auto|]. intros [H|(e & [] & _)]. assumption.
  - set (res' := collect_edge nl res e).
    assert (H : NoDup res' /\ forall x, In x res' <-> In x res \/
       (esrc e = fst x /\ akind (eatt nl (eid e)) = snd x /\ snd x <> EKNone /\ adis (eatt nl (eid e)) = false)).
    { unfold res', collect_edge, edisabled. destruct (adis (eatt nl (eid e))) eqn:D; simpl.
      { split; [assumption|]. intros x. intuition congruence. }
      destruct (edgekind_eqb (akind (eatt nl (eid e))) EKNone) eqn:K.
      { apply edgekind_eqb_eq in K. split; [assumption|]. intros x. intuition congruence. }
      assert (KN : akind (eatt nl (eid e)) <> EKNone) by (intros C; apply edgekind_eqb_eq in C; congruence).
      destruct (existsb (sens_eqb (esrc e, akind (eatt nl (eid e)))) res) eqn:X.
      - apply existsb_exists in X. destruct X as (y & Hy & Ey). apply sens_eqb_eq in Ey. subst y.
        split; [assumption|]. intros [x1 x2]. simpl. split; [auto|]. intros [H|(<- & <- & _)]; assumption.
      - assert (NI : ~ In (esrc e, akind (eatt nl (eid e))) res).
        { intros C. assert (existsb (sens_eqb (esrc e, akind (eatt nl (eid e)))) res = true)
            by (apply existsb_exists; eexists; split; [exact C|now apply sens_eqb_eq]). congruence. }
        split.
        + apply NoDup_app_intro; [assumption|repeat constructor; simpl; tauto|].
          intros x Hx [<-|[]]. tauto.
        + intros [x1 x2]. rewrite in_app_iff. simpl. split.
          * intros [H|[H|[]]]; [auto|]. injection H as <- <-. auto.
          * intros [H|(<- & <- & _)]; auto. }
    destruct H as [N1 I1]. destruct (IH res' N1) as [N2 I2]. fold res' in N2, I2 |- *.
    split; [exact N2|]. intros x. rewrite I2, I1. split.
    + intros [[H|H]|(e' & H1 & H2)]; [auto|right; exists e; split; [now left|tauto]|right; exists e'; split; [now right|assumption]].
    + intros [H|(e' & [<-|H1] & H2)]; [auto|left; right; tauto|right; exists e'; auto].
Qed.

Lemma clocks_iff nl st s k : Clocks nl st s k <->
  exists e, In e (nins nl st) /\ esrc e = fst (s, k) /\ akind (eatt nl (eid e)) = snd (s, k) /\
    snd (s, k) <> EKNone /\ adis (eatt nl (eid e)) = false.
Proof. reflexivity. Qed.

Lemma isState_true nl n : isState nl n = true <-> nkind (ninf nl n) = KState.
Proof. unfold isState, nlkind. apply kind_eqb_eq. Qed.

Section Sens.
  Context (nl : netlist) (W : WF nl) (n : nat).

  Definition EdgeDone (vis : list nat) (res : list sens) (e : edge) : Prop :=
    adis (eatt nl (eid e)) = true \/
    (nkind (ninf nl (etgt e)) = KState /\ forall s k, Clocks nl (etgt e) s k -> In (s, k) res) \/
    (nkind (ninf nl (etgt e)) <> KState /\ In (etgt e) vis).
  Definition From (u : nat) (x : sens) : Prop :=
    exists st, Conn nl u st /\ nkind (ninf nl st) = KState /\ Clocks nl st (fst x) (snd x).

  Lemma walk_edges cur : forall es vis stk res,
    (forall e, In e es -> In e (nouts nl cur)) -> NoDup vis -> NoDup res ->
    exists new res',
      fold_left (walk_edge nl) es (vis, stk, res) = (new ++ vis, new ++ stk, res') /\
      NoDup (new ++ vis) /\ NoDup res' /\
      (forall m, In m new -> Comb nl cur m) /\
      (forall x, In x res -> In x res') /\
      (forall x, In x res' -> In x res \/ From cur x) /\
      (forall e, In e es -> EdgeDone (new ++ vis) res' e).
  Proof.
    induction es as [|e es IH]; intros vis stk res Hes Hv Hr; cbn [fold_left].
    - exists [], res. simpl. split; [reflexivity|]. split; [assumption|]. split; [assumption|].
      split; [intros m []|]. split; [auto|]. split; [auto|intros e []].
    - assert (He : In e (nouts nl cur)) by (apply Hes; now left).
      assert (Hes' : forall e', In e' es -> In e' (nouts nl cur)) by (intros; apply Hes; now right).
      unfold walk_edge at 2. unfold edisabled. destruct (adis (eatt nl (eid e))) eqn:D.
      { destruct (IH vis stk res Hes' Hv Hr) as (new & res' & E & A1 & A2 & A3 & A4 & A5 & A6).
        exists new, res'. do 6 (split; [assumption|]). intros e' [<-|H]; [left; exact D|auto]. }
      destruct (isState nl (etgt e)) eqn:S.
      { apply isState_true in S. unfold collectFromState.
        destruct (collect_spec nl (nins nl (etgt e)) res Hr) as [N1 I1].
        destruct (IH vis stk _ Hes' Hv N1) as (new & res' & E & A1 & A2 & A3 & A4 & A5 & A6).
        exists new, res'. split; [exact E|]. split; [exact A1|]. split; [exact A2|]. split; [exact A3|].
        split; [intros x Hx; apply A4, I1; now left|]. split.
        - intros x Hx. destruct (A5 x Hx) as [H|H]; [|auto]. apply I1 in H. destruct H as [H|H]; [auto|].
          right. exists (etgt e). split; [exists e; auto|]. split; [exact S|]. exact H.
        - intros e' [<-|H]; [|auto]. right. left. split; [exact S|]. intros s k Hc.
          apply A4, I1. right. exact Hc. }
      apply isState_false in S.
      destruct (mem (etgt e) vis) eqn:M.
      { apply mem_In in M. destruct (IH vis stk res Hes' Hv Hr) as (new & res' & E & A1 & A2 & A3 & A4 & A5 & A6).
        exists new, res'. do 6 (split; [assumption|]). intros e' [<-|H]; [|auto].
        right. right. split; [exact S|]. apply in_app_iff. now right. }
      apply mem_false in M.
      destruct (IH (etgt e :: vis) (etgt e :: stk) res Hes') as (new & res' & E & A1 & A2 & A3 & A4 & A5 & A6);
        [constructor; assumption|assumption|].
      exists (new ++ [etgt e]), res'. rewrite <- !app_assoc. simpl.
      split; [exact E|]. split; [exact A1|]. split; [exact A2|]. split; [|split; [exact A4|split; [exact A5|]]].
      + intros m Hm. apply in_app_iff in Hm. destruct Hm as [Hm|[<-|[]]]; [auto|].
        split; [exists e; auto|exact S].
      + intros e' [<-|H]; [|auto]. right. right. split; [exact S|]. apply in_app_iff. right. now left.
  Qed.

  Lemma EdgeDone_mono vis vis' res res' e : (forall m, In m vis -> In m vis') ->
    (forall x, In x res -> In x res') -> EdgeDone vis res e -> EdgeDone vis' res' e.
  Proof.
    intros H1 H2 [H|[[H K]|[H K]]]; [now left|right; left|right; right]; split; auto.
  Qed.

  Record SInv (vis stk : list nat) (res : list sens) : Prop := {
    si_vis : NoDup vis;
    si_stk : NoDup stk;
    si_sub : forall m, In m stk -> In m vis;
    si_reach : forall m, In m vis -> Reach (Comb nl) n m;
    si_start : In n vis;
    si_res : NoDup res;
    si_from : forall x, In x res -> exists u, Reach (Comb nl) n u /\ From u x;
    si_done : forall u e, In u vis -> ~ In u stk -> In e (nouts nl u) -> EdgeDone vis res e }.

  Lemma comb_live m : In n (gnodes (ng nl)) -> Reach (Comb nl) n m -> In m (gnodes (ng nl)).
  Proof.
    intros Hs. induction 1 as [|b c _ IH [(e & He & Ht & _) _]]; [assumption|].
    destruct (mir_out _ W b e He) as (_ & _ & K & _). congruence.
  Qed.

  Lemma sens_walk_ok : In n (gnodes (ng nl)) -> forall fuel vis stk res,
    SInv vis stk res -> (length (gnodes (ng nl)) + length stk <= fuel + length vis)%nat ->
    exists r vis', sens_walk nl fuel (vis, stk, res) = Some r /\ SInv vis' [] r.
  Proof.
    intros Hn. induction fuel as [|k IH]; intros vis stk res I Hf.
    - assert (L : (length vis <= length (gnodes (ng nl)))%nat).
      { apply NoDup_incl_length; [apply I|]. intros m Hm. apply comb_live; [assumption|]. now apply (si_reach _ _ _ I). }
      destruct stk as [|c stk]; [|simpl in Hf; lia]. exists res, vis. split; [reflexivity|assumption].
    - destruct stk as [|cur stk]; [exists res, vis; split; [reflexivity|assumption]|].
      cbn [sens_walk].
      destruct (walk_edges cur (nouts nl cur) vis stk res) as (new & res' & E & A1 & A2 & A3 & A4 & A5 & A6);
        [auto|apply I|apply I|]. rewrite E.
      pose proof (si_stk _ _ _ I) as Hs. inversion Hs as [|? ? Hc Hs']; subst.
      assert (Hcv : In cur vis) by (apply (si_sub _ _ _ I); now left).
      assert (Hrc : Reach (Comb nl) n cur) by now apply (si_reach _ _ _ I).
      apply IH.
      + constructor.
        * exact A1.
        * apply NoDup_app_intro; [|exact Hs'|].
          { clear -A1. induction new; simpl in *; [constructor|]. inversion A1; subst. constructor; auto.
            intros C. apply H1, in_app_iff. now left. }
          intros x Hx Hx'. assert (In x vis) by (apply (si_sub _ _ _ I); now right).
          clear -A1 Hx H. induction new as [|y new IHn]; simpl in *; [tauto|]. inversion A1; subst.
          destruct Hx as [<-|Hx]; [|auto]. apply H2, in_app_iff. now right.
        * intros m Hm. apply in_app_iff in Hm. apply in_app_iff. destruct Hm as [Hm|Hm]; [now left|].
          right. apply (si_sub _ _ _ I). now right.
        * intros m Hm. apply in_app_iff in Hm. destruct Hm as [Hm|Hm]; [|now apply (si_reach _ _ _ I)].
          eapply reach_step; [exact Hrc|auto].
        * apply in_app_iff. right. exact (si_start _ _ _ I).
        * exact A2.
        * intros x Hx. destruct (A5 x Hx) as [H|H]; [now apply (si_from _ _ _ I)|]. eauto.
        * intros u e Hu Hns He. destruct (Nat.eq_dec u cur) as [->|Huc]; [auto|].
          apply in_app_iff in Hu. destruct Hu as [Hu|Hu].
          { exfalso. apply Hns, in_app_iff. now left. }
          eapply EdgeDone_mono; [| |apply (si_done _ _ _ I u e Hu)]; auto.
          { intros m Hm. apply in_app_iff. now right. }
          { intros [C|C]; [congruence|]. apply Hns, in_app_iff. now right. }
      + rewrite !app_length. simpl in Hf. lia.
  Qed.

  Lemma sens_final res vis : SInv vis [] res ->
    NoDup res /\ forall s k, In (s, k) res <->
      exists u st, Reach (Comb nl) n u /\ Conn nl u st /\ nkind (ninf nl st) = KState /\ Clocks nl st s k.
  Proof.
    intros I. split; [apply I|]. intros s k. split.
    - intros H. destruct (si_from _ _ _ I _ H) as (u & Hu & st & H1 & H2 & H3). exists u, st. auto.
    - intros (u & st & Hu & (e & He & Ht & Hd) & Hs & Hc).
      assert (Hv : forall m, Reach (Comb nl) n m -> In m vis).
      { intros m. induction 1 as [|b c _ IHr [(e' & He' & Ht' & Hd') Hk]]; [exact (si_start _ _ _ I)|].
        destruct (si_done _ _ _ I b e' IHr (fun f => f) He') as [H|[[H _]|[_ H]]]; [congruence| |].
        - rewrite Ht' in H. congruence.
        - congruence. }
      destruct (si_done _ _ _ I u e (Hv u Hu) (fun f => f) He) as [H|[[_ H]|[H _]]]; [congruence| |].
      + apply H. now rewrite Ht.
      + rewrite Ht in H. congruence.
  Qed.
End Sens.

Lemma c20 nl n : WF nl -> In n (gnodes (ng nl)) ->
  exists res, getSensitivity nl n = Some res /\ NoDup res /\
  (nkind (ninf nl n) = KState -> forall s k, In (s, k) res <-> Clocks nl n s k) /\
  (nkind (ninf nl n) <> KState -> forall s k, In (s, k) res <->
      exists u st, Reach (Comb nl) n u /\ Conn nl u st /\ nkind (ninf nl st) = KState /\ Clocks nl st s k).
Proof.
  intros W Hn. unfold getSensitivity. destruct (isState nl n) eqn:S.
  - apply isState_true in S. destruct (collect_spec nl (nins nl n) [] (NoDup_nil _)) as [A B].
    eexists. split; [reflexivity|]. split; [exact A|]. split; [|tauto].
    intros _ s k. unfold collectFromState. rewrite B. simpl. split; [intros [[]|H]; exact H|auto].
  - apply isState_false in S.
    destruct (sens_walk_ok nl W n Hn (length (gnodes (ng nl))) [n] [n] []) as (r & vis & E & I).
    + constructor; simpl.
      * repeat constructor. intros [].
      * repeat constructor. intros [].
      * auto.
      * intros m [<-|[]]. constructor.
      * now left.
      * constructor.
      * intros x [].
      * intros u e [<-|[]] H. tauto.
    + simpl. lia.
    + exists r. split; [exact E|]. destruct (sens_final nl n r vis I) as [A B].
      split; [exact A|]. split; [tauto|]. intros _. exact B.
Qed.

(** ** C21 *)
Definition scan_bad nl n (m : nat) : Prop :=
  m <> n /\ (nkind (ninf nl m) = KState \/ (nkind (ninf nl m) = KPort /\ ins (nst (ng nl) m) = [])).

Lemma const_scan_spec nl n : forall l acc,
  (exists m, In m l /\ scan_bad nl n m) /\ const_scan nl n l acc = [] \/
  (forall m, In m l -> ~ scan_bad nl n m) /\
  const_scan nl n l acc =
    acc ++ filter (fun m => negb (Nat.eqb m n) && kind_eqb (nkind (ninf nl m)) KConstant) l.
Proof.
  induction l as [|m l IH]; intros acc; simpl.
  - right. rewrite app_nil_r. split; [intros m []|reflexivity].
  - destruct (Nat.eqb_spec m n) as [->|Hm]; simpl.
    + destruct (IH acc) as [[(x & Hx & Hb) E]|[H E]]; [left; eauto|right].
      split; [|exact E]. intros x [<-|Hx]; [unfold scan_bad; tauto|auto].
    + unfold nlkind. destruct (nkind (ninf nl m)) eqn:K; simpl;
        try (destruct (IH acc) as [[(x & Hx & Hb) E]|[H E]]; [left; eauto|right; split; [|exact E];
             intros x [<-|Hx]; [intros [_ [C|[C _]]]; congruence|auto]]).
      * unfold nins. destruct (ins (nst (ng nl) m)) as [|i il] eqn:HI.
        { left. split; [|reflexivity]. exists m. split; [now left|]. split; auto. }
        destruct (IH acc) as [[(x & Hx & Hb) E]|[H E]]; [left; eauto|right]. split; [|exact E].
        intros x [<-|Hx]; [intros [_ [C|[_ C]]]; congruence|auto].
      * left. split; [|reflexivity]. exists m. split; [now left|]. split; auto.
      * destruct (IH (acc ++ [m])) as [[(x & Hx & Hb) E]|[H E]]; [left; eauto|right].
        split; [intros x [<-|Hx]; [intros [_ [C|[C _]]]; congruence|auto]|].
        rewrite E, <- app_assoc. reflexivity.
Qed.

Lemma c21 nl n : WF nl -> In n (gnodes (ng nl)) ->
  exists res, getConstantDrivers nl n = Some res /\ NoDup res /\
   ((exists m, m <> n /\ Reach (CombBack nl) n m /\ nkind (ninf nl m) = KPort /\
               ins (nst (ng nl) m) = []) -> res = []) /\
   ((~ exists m, m <> n /\ Reach (CombBack nl) n m /\ nkind (ninf nl m) = KPort /\
               ins (nst (ng nl) m) = []) ->
    forall c, In c res <-> c <> n /\ Reach (CombBack nl) n c /\ nkind (ninf nl c) = KConstant).
Proof.
  intros W Hn. destruct (fanIn_spec nl n W Hn) as (l & E & ND & _ & HL).
  unfold getConstantDrivers. rewrite E. cbn [option_map]. eexists. split; [reflexivity|].
  assert (NS : forall m, In m l -> m <> n -> nkind (ninf nl m) <> KState).
  { intros m Hm Hne. apply HL in Hm. inversion Hm; subst; [congruence|].
    match goal with H : CombBack nl _ m |- _ => exact (proj2 H) end. }
  destruct (const_scan_spec nl n l []) as [[(m & Hm & Hb) Er]|[Hb Er]]; rewrite Er.
  - split; [constructor|]. split; [reflexivity|]. intros H. exfalso. apply H. exists m.
    destruct Hb as [Hne [Hs|[Hp Hi]]]; [exfalso; exact (NS m Hm Hne Hs)|].
    repeat split; auto. now apply HL.
  - simpl. split; [now apply NoDup_filter'|]. split.
    + intros (m & Hne & Hr & Hp & Hi). exfalso. apply (Hb m); [now apply HL|]. split; auto.
    + intros _ c. rewrite filter_In, andb_true_iff, negb_true_iff, Nat.eqb_neq, kind_eqb_eq, HL. tauto.
Qed.

(** ** C22 *)
Lemma starts_with_spec s p : match starts_with s p with
  | Some r => s = p ++ r
  | None => forall r, s <> p ++ r
  end.
Proof.
  revert s. induction p as [|c p IH]; intros s; simpl; [reflexivity|].
  destruct s as [|d s]; [discriminate|]. destruct (ascii_dec c d) as [->|Hne].
  - specialize (IH s). destruct (starts_with s p) as [r|]; [rewrite IH; reflexivity|].
    intros r H. injection H as H. now apply (IH r).
  - intros r H. injection H as H _. congruence.
Qed.

Lemma has_dot_iff s : has_dot s = true <-> In dot s.
Proof.
  unfold has_dot. rewrite existsb_exists. split.
  - intros (c & Hc & E). destruct (ascii_dec c dot); [now subst|discriminate].
  - intros H. exists dot. split; [assumption|]. now destruct (ascii_dec dot dot).
Qed.

Definition bbC (inf : ninfo) (p bb : str) : Prop :=
  p = bb \/ exists rest, BelowBy bb p rest /\ ~ DirectPort inf rest.
Definition bbB (inf : ninfo) (p bb : str) : Prop :=
  exists rest, BelowBy bb p rest /\ DirectPort inf rest.

Lemma bb_loop_spec inf p : forall bbs res, res <> Contained ->
  let c := bb_loop (kind_eqb (nkind inf) KPort) p bbs res in
  (c = Contained <-> exists bb, In bb bbs /\ bbC inf p bb) /\
  (c = Boundary <-> ~ (exists bb, In bb bbs /\ bbC inf p bb) /\
                    (res = Boundary \/ exists bb, In bb bbs /\ bbB inf p bb)).
Proof.
  assert (key : forall bb, 
     match starts_with p bb with
     | None => ~ bbC inf p bb /\ ~ bbB inf p bb
     | Some [] => bbC inf p bb
     | Some (c :: rest) =>
          if ascii_dec c dot then
            if kind_eqb (nkind inf) KPort && negb (has_dot rest)
            then ~ bbC inf p bb /\ bbB inf p bb else bbC inf p bb
          else ~ bbC inf p bb /\ ~ bbB inf p bb
     end).
  { intros bb. pose proof (starts_with_spec p bb) as H.
    destruct (starts_with p bb) as [[|c rest]|].
    - left. now rewrite app_nil_r in H.
    - assert (NE : p <> bb).
      { intros C. rewrite C in H. apply (f_equal (@length ascii)) in H. rewrite app_length in H. simpl in H. lia. }
      assert (UN : forall r, BelowBy bb p r -> c = dot /\ r = rest).
      { intros r Hr. unfold BelowBy in Hr. rewrite H in Hr. apply app_inv_head in Hr. injection Hr as -> ->. auto. }
      destruct (ascii_dec c dot) as [->|Hc].
      + destruct (kind_eqb (nkind inf) KPort && negb (has_dot rest)) eqn:E.
        * apply andb_true_iff in E. destruct E as [E1 E2]. apply kind_eqb_eq in E1.
          assert (DP : DirectPort inf rest).
          { split; [assumption|]. intros C. apply has_dot_iff in C. rewrite C in E2. discriminate. }
          split.
          -- intros [C|(r & Hr & Hn)]; [auto|]. apply UN in Hr. destruct Hr as [_ ->]. tauto.
          -- exists rest. split; [exact H|exact DP].
        * right. exists rest. split; [exact H|]. intros [D1 D2].
          apply andb_false_iff in E. destruct E as [E|E].
          -- apply kind_eqb_eq in D1. congruence.
          -- apply negb_false_iff, has_dot_iff in E. tauto.
      + split.
        * intros [C|(r & Hr & _)]; [auto|]. apply UN in Hr. tauto.
        * intros (r & Hr & _). apply UN in Hr. tauto.
    - split.
      + intros [C|(r & Hr & _)]; [apply (H []); now rewrite app_nil_r|]. now apply (H (dot :: r)).
      + intros (r & Hr & _). now apply (H (dot :: r)). }
  induction bbs as [|bb bbs IH]; intros res Hres; cbn [bb_loop].
  - split.
    + split; [congruence|]. intros (bb & [] & _).
    + split.
      * intros ->. split; [intros (bb & [] & _)|now left].
      * intros [_ [H|(bb & [] & _)]]. assumption.
  - specialize (key bb).
    assert (skip : ~ bbC inf p bb -> forall res', res' <> Contained -> 
      (res' = Boundary <-> res = Boundary \/ bbB inf p bb) ->
      let c := bb_loop (kind_eqb (nkind inf) KPort) p bbs res' in
      (c = Contained <-> exists bb0, In bb0 (bb :: bbs) /\ bbC inf p bb0) /\
      (c = Boundary <-> ~ (exists bb0, In bb0 (bb :: bbs) /\ bbC inf p bb0) /\
                    (res = Boundary \/ exists bb0, In bb0 (bb :: bbs) /\ bbB inf p bb0))).
    { intros HC res' Hr' HB. destruct (IH res' Hr') as [I1 I2].
      assert (EC : (exists bb0, In bb0 (bb :: bbs) /\ bbC inf p bb0) <-> exists bb0, In bb0 bbs /\ bbC inf p bb0).
      { split; intros (b0 & H1 & H2); exists b0; [destruct H1 as [<-|H1]; tauto|split; [now right|assumption]]. }
      split; [now rewrite EC|]. rewrite EC. cbv zeta in I2. rewrite I2. 
      assert (EB : (exists bb0, In bb0 (bb :: bbs) /\ bbB inf p bb0) <-> bbB inf p bb \/ exists bb0, In bb0 bbs /\ bbB inf p bb0).
      { split.
        - intros (b0 & [<-|H1] & H2); [now left|right; eauto].
        - intros [H|(b0 & H1 & H2)]; [exists bb; split; [now left|assumption]|exists b0; split; [now right|assumption]]. }
      rewrite EB, HB. tauto. }
    destruct (starts_with p bb) as [[|c rest]|].
    + split; [split; [intros _; exists bb; split; [now left|assumption]|reflexivity]|].
      split; [discriminate|]. intros [H _]. exfalso. apply H. exists bb. split; [now left|assumption].
    + destruct (ascii_dec c dot).
      * destruct (kind_eqb (nkind inf) KPort && negb (has_dot rest)).
        -- destruct key as [K1 K2]. apply skip; auto; [discriminate|]. split; [auto|reflexivity].
        -- split; [split; [intros _; exists bb; split; [now left|assumption]|reflexivity]|].
           split; [discriminate|]. intros [H _]. exfalso. apply H. exists bb. split; [now left|assumption].
      * destruct key as [K1 K2]. apply skip; auto. tauto.
    + destruct key as [K1 K2]. apply skip; auto. tauto.
Qed.

Lemma c22 bbs inf :
  (getBlackBoxCoverage bbs inf = Contained <-> IsContained bbs inf) /\
  (getBlackBoxCoverage bbs inf = Boundary <-> ~ IsContained bbs inf /\ IsBoundary bbs inf) /\
  (getBlackBoxCoverage bbs inf = Outside <-> ~ IsContained bbs inf /\ ~ IsBoundary bbs inf).
Proof.
  unfold getBlackBoxCoverage, IsContained, IsBoundary. destruct (npath inf) as [p|].
  - destruct (bb_loop_spec inf p bbs Outside) as [H1 H2]; [discriminate|].
    set (c := bb_loop _ _ _ _) in *. cbv zeta in H1, H2.
    assert (EC : (exists p0 bb, Some p = Some p0 /\ In bb bbs /\ (p0 = bb \/ exists rest, BelowBy bb p0 rest /\ ~ DirectPort inf rest))
       <-> exists bb, In bb bbs /\ bbC inf p bb).
    { split; [intros (p0 & bb & E & H)|intros (bb & H)].
      - injection E as <-. exists bb. exact H.
      - exists p, bb. split; [reflexivity|exact H]. }
    assert (EB : (exists p0 bb rest, Some p = Some p0 /\ In bb bbs /\ BelowBy bb p0 rest /\ DirectPort inf rest)
       <-> exists bb, In bb bbs /\ bbB inf p bb).
    { split.
      - intros (p0 & bb & rest & E & H & K). injection E as <-. exists bb. split; [assumption|]. exists rest. exact K.
      - intros (bb & H & rest & K). exists p, bb, rest. auto. }
    rewrite EC, EB. split; [exact H1|]. split; [rewrite H2; intuition discriminate|].
    destruct c; intuition (try discriminate).
  - assert (A : ~ exists p0 bb, None = Some p0 /\ In bb bbs /\ (p0 = bb \/ exists rest, BelowBy bb p0 rest /\ ~ DirectPort inf rest))
      by (intros (? & ? & E & _); discriminate).
    assert (B : ~ exists p0 bb rest, None = Some p0 /\ In bb bbs /\ BelowBy bb p0 rest /\ DirectPort inf rest)
      by (intros (? & ? & ? & E & _); discriminate).
    repeat split; try discriminate; tauto.
Qed.

Lemma c22_order bbs bbs' inf : (forall x, In x bbs <-> In x bbs') ->
  getBlackBoxCoverage bbs inf = getBlackBoxCoverage bbs' inf.
Proof.
  intros H.
  assert (EC : IsContained bbs inf <-> IsContained bbs' inf).
  { unfold IsContained. split; intros (p & bb & H1 & H2 & H3); exists p, bb; rewrite H in *; auto; tauto. }
  assert (EB : IsBoundary bbs inf <-> IsBoundary bbs' inf).
  { unfold IsBoundary. split; intros (p & bb & r & H1 & H2 & H3); exists p, bb, r; rewrite H in *; auto; tauto. }
  destruct (c22 bbs inf) as (A1 & A2 & A3). destruct (c22 bbs' inf) as (B1 & B2 & B3).
  destruct (getBlackBoxCoverage bbs inf).
  - symmetry. apply B3. rewrite <- EC, <- EB. now apply A3.
  - symmetry. apply B2. rewrite <- EC, <- EB. now apply A2.
  - symmetry. apply B1. rewrite <- EC. now apply A1.
Qed.
