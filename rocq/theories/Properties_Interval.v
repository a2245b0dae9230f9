(** Properties C28 (interval difference), C54 (cut registry), C63 (variable tracker). *)
From Coq Require Import Sorted.
From Verif Require Import Base M_Range M_Interval S_Interval P_Interval.
Local Open Scope Z_scope.

(** * C28: the difference covers a bit iff the first map covers it and the second does
    not.

    Full statement: for all well-formed maps [a], [b] and every bit [i],
    covers (difference a b) i <-> covers a i /\ ~ covers b i.

    It is false: line 43 leaves the loop when [current] equals [end], although bit
    [end] may be covered by the next interval.  [0,5] minus {[0,4], [5,5]} is [5,5]. *)
Theorem c28_difference_refuted :
  exists a b : list (iv nat),
    nonempty_ivs a /\ disjoint_ivs a /\ nonempty_ivs b /\ disjoint_ivs b /\
    exists i, covers (difference a b) i /\ covers b i.
Proof.
  exists [IV 0 5 0%nat], [IV 0 4 1%nat; IV 5 5 2%nat].
  assert (Wa : wf [IV 0 5 0%nat]).
  { apply wf_cons. cbn. split; [lia|]. split; [easy|apply wf_nil]. }
  assert (Wb : wf [IV 0 4 1%nat; IV 5 5 2%nat]).
  { apply wf_cons. cbn. split; [lia|]. split.
    - intros y [<-|[]]. cbn. lia.
    - apply wf_cons. cbn. split; [lia|]. split; [easy|apply wf_nil]. }
  apply wf_spec in Wa, Wb. repeat (split; [tauto|]).
  exists 5. split.
  - exists (IV 5 5 0%nat). split; [vm_compute; auto|unfold inside; cbn; lia].
  - exists (IV 5 5 2%nat). split; [cbn; auto|unfold inside; cbn; lia].
Qed.
Print Assumptions c28_difference_refuted.

(** Exactly which bits the difference covers: besides the right ones, the last bit of
    an interval of [a] whose previous bit ends an interval of [b]. *)
Theorem c28_difference_bits : forall (V : Type) (a b : list (iv V)) (i : Z),
  nonempty_ivs a -> nonempty_ivs b -> disjoint_ivs b ->
  (covers (difference a b) i <->
   exists x, In x a /\ ilo x <= i <= ihi x /\
     (~ covers b i \/
      (i = ihi x /\ exists r, In r b /\ ihi r = ihi x - 1 /\ ilo x <= ihi r))).
Proof.
  intros V a b i Na Nb Db. apply difference_exact; [exact Na|]. now apply wf_spec.
Qed.
Print Assumptions c28_difference_bits.

(** Nothing outside [b] is lost and nothing outside [a] appears, for any maps at all:
    the difference errs on the safe side (an extra pending R-value, never a missing
    one). *)
Theorem c28_difference_safe : forall (V : Type) (a b : list (iv V)) (i : Z),
  nonempty_ivs a -> covers a i -> ~ covers b i -> covers (difference a b) i.
Proof. intros V a b i. apply difference_keeps. Qed.
Print Assumptions c28_difference_safe.

Theorem c28_difference_partial : forall (V : Type) (a b : list (iv V)) (i : Z),
  nonempty_ivs a -> nonempty_ivs b -> separated b ->
  (covers (difference a b) i <-> covers a i /\ ~ covers b i).
Proof.
  intros V a b i Na Nb Sb.
  assert (Db : disjoint_ivs b).
  { intros p x q y r E. specialize (Sb p x q y r E). lia. }
  rewrite (c28_difference_bits V a b i Na Nb Db). split.
  - intros (x & I & C & [H|(E & r & J & H1 & H2)]).
    + split; [exists x; auto|exact H].
    + split; [exists x; auto|]. intros (s & K & Hs). unfold inside in Hs.
      pose proof (Nb r J).
      assert (r = s \/ ihi r + 1 < ilo s \/ ihi s + 1 < ilo r).
      { apply (apart_two r s b); auto. split; [exact Nb|]. apply SS_split. exact Sb. }
      destruct H0 as [->|[Q|Q]]; lia.
  - intros [(x & I & C) H]. exists x. auto.
Qed.
Print Assumptions c28_difference_partial.

(** The result satisfies the insertion precondition and is again well formed. *)
Theorem c28_difference_wellformed : forall (V : Type) (a b : list (iv V)),
  nonempty_ivs a -> disjoint_ivs a ->
  nonempty_ivs (difference a b) /\ disjoint_ivs (difference a b).
Proof. intros V a b Na Da. apply difference_wf. now apply wf_spec. Qed.
Print Assumptions c28_difference_wellformed.

Example c28_ex1 : difference [IV 0 9 0%nat] [IV 2 3 1%nat; IV 6 7 1%nat]
  = [IV 0 1 0%nat; IV 4 5 0%nat; IV 8 9 0%nat].
Proof. reflexivity. Qed.
(** The unit test "subtracted range starts at current". *)
Example c28_ex2 : difference [IV 0 9 0%nat] [IV 0 3 1%nat] = [IV 4 9 0%nat].
Proof. reflexivity. Qed.
Example c28_ex3 : difference [IV 0 5 0%nat] [IV 0 4 1%nat; IV 5 5 2%nat] = [IV 5 5 0%nat].
Proof. reflexivity. Qed.

(** * C54: after any sequence of addCuts calls, cutsFor(symbol) is strictly increasing
    and contains exactly the cuts ever added strictly inside the symbol's width; the
    result does not depend on the order of the calls. *)
Theorem c54_cuts_sorted : forall width ops s l,
  cutsFor (cut_run width reg_empty ops) s = Some l -> StronglySorted N.lt l.
Proof.
  intros width ops s l E.
  pose proof (cut_run_strict width s ops reg_empty (SSorted_nil _)) as S.
  unfold regl in S. unfold cutsFor in E. rewrite E in S. exact S.
Qed.
Print Assumptions c54_cuts_sorted.

Theorem c54_cuts_exact : forall width ops s l,
  cutsFor (cut_run width reg_empty ops) s = Some l ->
  forall c, In c l <-> ((0 < c < width s)%N /\ exists cuts, In (s, cuts) ops /\ In c cuts).
Proof.
  intros width ops s l E c. pose proof (cut_run_in width s c ops reg_empty) as S.
  unfold regl at 1 in S. unfold cutsFor in E. rewrite E in S. rewrite S. cbn. split.
  - intros [[]|(cuts & A & B & C)]. eauto.
  - intros (A & cuts & B & C). eauto.
Qed.
Print Assumptions c54_cuts_exact.

(** cutsFor returns nullptr exactly when no call gave the symbol any cut. *)
Theorem c54_cuts_null : forall width ops s,
  cutsFor (cut_run width reg_empty ops) s = None <->
  (forall cuts, In (s, cuts) ops -> cuts = []).
Proof.
  intros width ops s. pose proof (cut_run_some width s ops reg_empty) as S.
  split.
  - intros E cuts I. destruct cuts; [reflexivity|]. exfalso.
    apply (proj2 S); [|exact E]. right. exists (n :: cuts). split; [exact I|discriminate].
  - intros H. destruct (cutsFor _ s) eqn:E; [|reflexivity]. exfalso.
    destruct (proj1 S) as [Q|(cuts & I & Q)]; [discriminate|now apply Q|].
    apply Q, H, I.
Qed.
Print Assumptions c54_cuts_null.

Theorem c54_cuts_order : forall width ops1 ops2 s, Permutation ops1 ops2 ->
  cutsFor (cut_run width reg_empty ops1) s = cutsFor (cut_run width reg_empty ops2) s.
Proof.
  intros width ops1 ops2 s P.
  destruct (cutsFor (cut_run width reg_empty ops1) s) as [l1|] eqn:E1.
  - destruct (cutsFor (cut_run width reg_empty ops2) s) as [l2|] eqn:E2.
    + f_equal. apply strict_ext.
      * apply (c54_cuts_sorted width ops1 s l1 E1).
      * apply (c54_cuts_sorted width ops2 s l2 E2).
      * intros c. rewrite (c54_cuts_exact width ops1 s l1 E1 c).
        rewrite (c54_cuts_exact width ops2 s l2 E2 c).
        split; intros (A & cuts & B & C); (split; [exact A|]); exists cuts;
          (split; [|exact C]).
        -- apply (Permutation_in _ P B).
        -- apply (Permutation_in _ (Permutation_sym P) B).
    + exfalso. pose proof (proj1 (c54_cuts_null width ops2 s) E2) as H2.
      assert (X : cutsFor (cut_run width reg_empty ops1) s = None).
      { apply c54_cuts_null. intros cuts I. apply H2. apply (Permutation_in _ P I). }
      congruence.
  - symmetry. apply c54_cuts_null. intros cuts I.
    apply (proj1 (c54_cuts_null width ops1 s) E1).
    apply (Permutation_in _ (Permutation_sym P) I).
Qed.
Print Assumptions c54_cuts_order.

Example c54_ex : cutsFor (cut_run (fun _ => 8%N) reg_empty
    [(0%nat, [4; 0; 8; 2]%N); (1%nat, [1]%N); (0%nat, [2; 6; 9]%N)]) 0 = Some [2; 4; 6]%N.
Proof. reflexivity. Qed.

(** * C63: VariableTracker.

    Spec: the insertions of one symbol are a list of (bounds, node); they are disjoint
    when no two of them share a bit. *)
Definition disjoint_ranges (a b : range) : Prop :=
  forall i, ~ (Z.min (rleft a) (rright a) <= i <= Z.max (rleft a) (rright a) /\
               Z.min (rleft b) (rright b) <= i <= Z.max (rleft b) (rright b)).
Definition disjoint_history (ops : list (nat * range * nat)) : Prop :=
  forall p s b n q b' n' r, ops = p ++ (s, b, n) :: q ++ (s, b', n') :: r -> disjoint_ranges b b'.

Lemma disjoint_dis a b : disjoint_ranges a b -> dis a b.
Proof.
  intros H. unfold disjoint_ranges in H. unfold dis, lower, upper.
  destruct (Z_lt_le_dec (Z.max (rleft a) (rright a)) (Z.min (rleft b) (rright b))); [auto|].
  destruct (Z_lt_le_dec (Z.max (rleft b) (rright b)) (Z.min (rleft a) (rright a))); [auto|].
  exfalso.
  apply (H (Z.max (Z.min (rleft a) (rright a)) (Z.min (rleft b) (rright b)))). lia.
Qed.

Lemma history_pairs s ops : disjoint_history ops ->
  ForallOrdPairs (fun a b => dis (fst a) (fst b)) (ops_of s ops).
Proof.
  intros H. induction ops as [|[[s' b] n] ops IH]; [constructor|].
  assert (H' : disjoint_history ops).
  { intros p s0 b0 n0 q b' n' r E. apply (H ((s', b, n) :: p) s0 b0 n0 q b' n' r).
    now rewrite E. }
  unfold ops_of. cbn [filter fst snd]. destruct (Nat.eqb_spec s' s) as [->|D]; [|now apply IH].
  cbn [map fst snd]. constructor; [|now apply IH].
  apply Forall_forall. intros [b' n'] I. cbn [fst]. apply in_map_iff in I.
  destruct I as ([[s1 b1] n1] & E & I). cbn [fst snd] in E. inversion E; subst.
  apply filter_In in I. destruct I as [I Q]. cbn [fst] in Q. apply Nat.eqb_eq in Q. subst s1.
  apply in_split in I. destruct I as (l1 & l2 & ->).
  apply disjoint_dis. apply (H [] s b n l1 b' n' l2). reflexivity.
Qed.

Lemma in_ops_of s ops b n : In (b, n) (ops_of s ops) <-> In (s, b, n) ops.
Proof.
  unfold ops_of. rewrite in_map_iff. split.
  - intros ([[s1 b1] n1] & E & I). apply filter_In in I. cbn [fst snd] in *.
    destruct I as [I Q]. apply Nat.eqb_eq in Q. inversion E; subst. exact I.
  - intros I. exists (s, b, n). split; [reflexivity|]. apply filter_In. cbn.
    now rewrite Nat.eqb_refl.
Qed.

(** As worded ("returns the node inserted with exactly those bounds") the claim fails
    for bounds given as [[hi:lo]]: the insertion stores the ascending pair, the lookup
    compares it with the bounds field by field. *)
Theorem c63_lookup_refuted :
  exists ops s b n, disjoint_history ops /\ In (s, b, n) ops /\
    vt_lookup (vt_run vt_empty ops) s b = None.
Proof.
  exists [(0%nat, Range 7 0, 5%nat)], 0%nat, (Range 7 0), 5%nat.
  split; [|split; [now left|reflexivity]].
  intros p s b n q b' n' r E. apply (f_equal (@length _)) in E.
  rewrite app_length in E. cbn in E. rewrite app_length in E. cbn in E. lia.
Qed.
Print Assumptions c63_lookup_refuted.

(** With ascending bounds in the query (every caller builds them from pairs) the lookup
    is exact; the insertions may use either order. *)
Theorem c63_lookup_partial : forall ops s b n,
  disjoint_history ops -> rleft b <= rright b ->
  (vt_lookup (vt_run vt_empty ops) s b = Some n <->
   exists b', In (s, b', n) ops /\
     Z.min (rleft b') (rright b') = rleft b /\ Z.max (rleft b') (rright b') = rright b).
Proof.
  intros ops s b n D A. pose proof (history_pairs s ops D) as P.
  pose proof (vt_run_sym s ops vt_empty) as E.
  destruct (ops_of s ops) as [|o0 l0] eqn:O.
  - unfold vt_lookup. rewrite E. cbn. split; [discriminate|].
    intros (b' & I & _). apply in_ops_of in I. rewrite O in I. easy.
  - rewrite <- O in *. set (l := ops_of s ops) in *.
    assert (E' : vt_run vt_empty ops s = Some (ins_all l [])).
    { rewrite E. rewrite O. reflexivity. }
    assert (W : wf (ins_all l [])).
    { apply wf_ins_all; [apply wf_nil|exact P|]. intros o y _ []. }
    rewrite (vt_lookup_wf _ s _ b n E' W A). rewrite in_ins_all. split.
    + intros [[]|([b' n'] & I & Q)]. cbn [fst snd] in Q. inversion Q; subst.
      exists b'. split; [now apply in_ops_of|]. unfold lower, upper. auto.
    + intros (b' & I & Q1 & Q2). right. exists (b', n). split; [now apply in_ops_of|].
      cbn [fst snd]. unfold lower, upper. now rewrite Q1, Q2.
Qed.
Print Assumptions c63_lookup_partial.

(** lookup(symbol) returns every inserted node once (as a multiset), ordered by the
    bits of their ranges. *)
Theorem c63_lookup_all : forall ops s,
  disjoint_history ops ->
  exists l : list (Z * Z * nat),
    vt_all (vt_run vt_empty ops) s = map snd l /\
    Permutation l (map (fun o => (Z.min (rleft (fst o)) (rright (fst o)),
                                  Z.max (rleft (fst o)) (rright (fst o)), snd o))
                       (map (fun o => (snd (fst o), snd o))
                            (filter (fun o => Nat.eqb (fst (fst o)) s) ops))) /\
    StronglySorted (fun x y => snd (fst x) < fst (fst y)) l.
Proof.
  intros ops s D. pose proof (history_pairs s ops D) as P.
  assert (E : match vt_run vt_empty ops s with Some m => m | None => [] end
              = ins_all (ops_of s ops) []).
  { rewrite vt_run_sym. destruct (ops_of s ops); reflexivity. }
  fold (ops_of s ops). set (l := ops_of s ops) in *.
  exists (map (fun x => (ilo x, ihi x, ival x)) (ins_all l [])). split; [|split].
  - rewrite map_map. cbn [snd]. unfold vt_all. rewrite <- E.
    destruct (vt_run vt_empty ops s); reflexivity.
  - pose proof (Permutation_map (fun x => (ilo x, ihi x, ival x)) (Permutation_ins_all l []))
      as Q. rewrite app_nil_r, map_map in Q. exact Q.
  - assert (W : wf (ins_all l [])).
    { apply wf_ins_all; [apply wf_nil|exact P|]. intros o y _ []. }
    destruct W as [_ S]. clear - S. induction S as [|a m S IH F]; cbn; constructor.
    + exact IH.
    + apply Forall_map. cbn. exact F.
Qed.
Print Assumptions c63_lookup_all.

Example c63_ex1 : vt_lookup (vt_run vt_empty
    [(0%nat, Range 7 4, 1%nat); (0%nat, Range 0 3, 2%nat); (1%nat, Range 0 0, 3%nat)]) 0 (Range 4 7)
  = Some 1%nat.
Proof. reflexivity. Qed.
Example c63_ex2 : vt_lookup (vt_run vt_empty [(0%nat, Range 7 4, 1%nat)]) 0 (Range 4 6) = None.
Proof. reflexivity. Qed.
Example c63_ex3 : vt_all (vt_run vt_empty
    [(0%nat, Range 7 4, 1%nat); (0%nat, Range 0 3, 2%nat); (1%nat, Range 0 0, 3%nat)]) 0
  = [2; 1]%nat.
Proof. reflexivity. Qed.
