From Coq Require Import QArith.
From Verif Require Import Base M_Stats S_Stats.
Require Import Lqa.

(** * The sort *)
Section Sort.
Context {T : Type}.
Variable leb : T -> T -> bool.
Lemma sinsert_perm x l : Permutation (x :: l) (sinsert leb x l).
Proof.
  induction l as [|y r IH]; simpl; [reflexivity|]. destruct (leb x y); [reflexivity|].
  rewrite perm_swap. now constructor.
Qed.
Lemma ssort_perm l : Permutation l (ssort leb l).
Proof.
  induction l as [|x l IH]; simpl; [reflexivity|]. rewrite <- sinsert_perm. now constructor.
Qed.
End Sort.

Definition recordQ := recordTaskStats 0 Qplus Qdiv (fun n => inject_Z (Z.of_nat n)) Qle_bool.

(** Sorted: every element is at most all later ones. *)
Inductive asc : list Q -> Prop :=
| asc_nil : asc []
| asc_cons x l : (forall y, In y l -> x <= y) -> asc l -> asc (x :: l).
Lemma asc_insert x l : asc l -> asc (sinsert Qle_bool x l).
Proof.
  induction 1 as [|y l H A IH]; simpl.
  - constructor; [intros y []|constructor].
  - destruct (Qle_bool x y) eqn:E.
    + apply Qle_bool_iff in E. constructor; [|constructor; auto].
      intros z [<-|Hz]; auto. specialize (H z Hz). lra.
    + constructor; auto. intros z Hz.
      apply (Permutation_in _ (Permutation_sym (sinsert_perm Qle_bool x l))) in Hz. destruct Hz as [<-|Hz]; auto.
      destruct (Qlt_le_dec x y) as [L|L]; auto. exfalso.
      assert (Q : x <= y) by lra. apply Qle_bool_iff in Q. congruence.
Qed.
Lemma asc_sort l : asc (ssort Qle_bool l).
Proof. induction l; simpl; [constructor|]. now apply asc_insert. Qed.

Lemma asc_app a b : asc (a ++ b) -> asc a /\ asc b /\ forall x y, In x a -> In y b -> x <= y.
Proof.
  induction a as [|x a IH]; simpl; intros H.
  - split; [constructor|]. split; auto. intros x y [].
  - inversion H as [|z l H1 H2]; subst. destruct (IH H2) as (A & B & C). split; [|split; auto].
    + constructor; auto. intros y Hy. apply H1. apply in_or_app. auto.
    + intros u y [<-|Hu] Hy; auto. apply H1. apply in_or_app. auto.
Qed.

(** * Sums *)
Lemma sum_perm l l' s : Permutation l l' -> Sum l s -> Sum l' s.
Proof.
  intros P. revert s. induction P as [|x l l' P IH|x y l|l l' l'' P1 IH1 P2 IH2]; intros s H; auto.
  - inversion H as [|x0 l0 t q H1 H2]; subst. econstructor; eauto.
  - inversion H as [|x0 l0 t q H1 H2]; subst. inversion H1 as [|x1 l1 t1 q1 H3 H4]; subst.
    apply Sum_cons with (y + t1); [|lra]. apply Sum_cons with t1; auto. reflexivity.
Qed.
Lemma sum_fold l : forall a, exists s, Sum l s /\ fold_left Qplus l a == a + s.
Proof.
  induction l as [|x l IH]; simpl; intros a.
  - exists 0. split; [constructor; reflexivity|lra].
  - destruct (IH (a + x)) as (s & S & E). exists (x + s). split; [|lra].
    econstructor; eauto. reflexivity.
Qed.
Lemma sum_eq l s q : Sum l s -> q == s -> Sum l q.
Proof. intros H E. inversion H; subst; econstructor; eauto; lra. Qed.
Lemma sum_bounds l lo hi s : (forall x, In x l -> lo <= x <= hi) -> Sum l s ->
  lo * inject_Z (Z.of_nat (length l)) <= s /\ s <= hi * inject_Z (Z.of_nat (length l)).
Proof.
  intros B H. induction H as [q E|x l s q H IH E].
  - simpl. change (inject_Z 0) with 0. split; lra.
  - cbn [length]. rewrite Nat2Z.inj_succ. unfold Z.succ. rewrite inject_Z_plus. change (inject_Z 1) with 1.
    destruct IH as [I1 I2]; [intros y Hy; apply B; now right|]. destruct (B x (or_introl eq_refl)). split; lra.
Qed.

Lemma split_at {A} (l : list A) n x : nth_error l n = Some x ->
  exists a b, l = a ++ x :: b /\ length a = n.
Proof. intros H. apply nth_error_split in H. destruct H as (a & b & H1 & H2). eauto. Qed.

Lemma count_pos (l : list Q) : l <> [] -> 0 < inject_Z (Z.of_nat (length l)).
Proof. intros H. destruct l; [congruence|]. change 0 with (inject_Z 0). rewrite <- Zlt_Qlt. cbn [length]. lia. Qed.

Lemma c61 l : l <> [] -> exists s, recordQ l = SOk s /\
  Least l (smin s) /\ Greatest l (smax s) /\ Sum l (stotal s) /\
  smean s * inject_Z (Z.of_nat (length l)) == stotal s /\ Median l (smedian s).
Proof.
  intros N. unfold recordQ, recordTaskStats.
  set (v := ssort Qle_bool l).
  assert (P : Permutation l v) by apply ssort_perm.
  assert (A : asc v) by apply asc_sort. clearbody v.
  assert (Lv : length v = length l) by (symmetry; now apply Permutation_length).
  assert (V : v <> []). { intros ->. apply Permutation_sym, Permutation_nil in P. auto. }
  destruct l as [|x0 l0] eqn:El; [congruence|]. rewrite <- El in *. clear El x0 l0.
  assert (Np : (1 <= length v)%nat). { destruct v; [congruence|simpl; lia]. }
  destruct (hd_error v) as [lo|] eqn:E1; [|destruct v; [congruence|discriminate]].
  destruct (nth_error v (length v - 1)) as [hi|] eqn:E2; [|apply nth_error_None in E2; lia].
  assert (Lo : Least l lo).
  { destruct v as [|y r]; [discriminate|]. injection E1 as ->. split.
    - apply (Permutation_in _ (Permutation_sym P)). now left.
    - intros x Hx. apply (Permutation_in _ P) in Hx. inversion A; subst. destruct Hx as [<-|Hx]; [lra|auto]. }
  assert (Hi : Greatest l hi).
  { destruct (split_at _ _ _ E2) as (a & b & Ev & La).
    assert (b = []). { rewrite Ev in La. rewrite app_length in La. simpl in La. destruct b; auto. simpl in La. lia. }
    subst b. split.
    - apply (Permutation_in _ (Permutation_sym P)). rewrite Ev. apply in_or_app. right. now left.
    - intros x Hx. apply (Permutation_in _ P) in Hx. rewrite Ev in Hx, A. apply asc_app in A. destruct A as (_ & _ & A).
      apply in_app_or in Hx. destruct Hx as [Hx|[<-|[]]]; [|lra]. apply A; auto. now left. }
  assert (Tot : Sum l (fold_left Qplus v 0)).
  { destruct (sum_fold v 0) as (s & S & E). apply (sum_perm v l); [now apply Permutation_sym|].
    apply (sum_eq v s); auto. lra. }
  assert (Med : exists m, (if (Nat.modulo (length v) 2 =? 0)%nat
       then match nth_error v (Nat.div (length v) 2 - 1), nth_error v (Nat.div (length v) 2) with
            | Some a, Some b => Some ((a + b) / inject_Z (Z.of_nat 2)) | _, _ => None end
       else nth_error v (Nat.div (length v) 2)) = Some m /\ Median l m).
  { destruct (Nat.eqb_spec (Nat.modulo (length v) 2) 0) as [M|M].
    - pose proof (Nat.div_mod (length v) 2 ltac:(lia)) as D. rewrite M in D.
      set (mid := Nat.div (length v) 2) in *.
      destruct (nth_error v (mid - 1)) as [x|] eqn:Ex; [|apply nth_error_None in Ex; lia].
      destruct (split_at _ _ _ Ex) as (a & b & Ev & La).
      destruct b as [|y b]. { rewrite Ev, app_length in D. simpl in D. lia. }
      assert (Ey : nth_error v mid = Some y).
      { rewrite Ev, nth_error_app2 by lia. rewrite La. replace (mid - (mid - 1))%nat with 1%nat by lia. reflexivity. }
      rewrite Ey. eexists. split; [reflexivity|].
      assert (L : length v = (length a + S (S (length b)))%nat) by (rewrite Ev, app_length; reflexivity).
      rewrite Ev in A. apply asc_app in A. destruct A as (_ & A2 & A3).
      inversion A2 as [|x1 l1 A4 A5]; subst x1 l1. inversion A5 as [|y1 l2 A6 A7]; subst y1 l2.
      apply Med_even with a x y b; auto.
      + rewrite Ev in P. exact P.
      + lia.
      + intros z Hz. apply A3; auto. now left.
      + apply A4. now left.
      + change (inject_Z (Z.of_nat 2)) with 2. unfold Qdiv. change (/ 2) with (1 # 2). lra.
    - destruct (nth_error v (Nat.div (length v) 2)) as [x|] eqn:Ex.
      2:{ apply nth_error_None in Ex. pose proof (Nat.div_lt (length v) 2 ltac:(lia) ltac:(lia)). lia. }
      exists x. split; auto. destruct (split_at _ _ _ Ex) as (a & b & Ev & La).
      rewrite Ev in A. apply asc_app in A. destruct A as (_ & A2 & A3).
      inversion A2 as [|x1 l1 A4 A5]; subst x1 l1.
      apply Med_odd with a b.
      + rewrite Ev in P. exact P.
      + pose proof (Nat.div_mod (length v) 2 ltac:(lia)) as D.
        assert (L : length v = (length a + S (length b))%nat) by (rewrite Ev, app_length; reflexivity).
        pose proof (Nat.mod_upper_bound (length v) 2 ltac:(lia)). lia.
      + intros z Hz. apply A3; auto. now left.
      + auto. }
  destruct Med as (m & Em & Med). rewrite Em. eexists. split; [reflexivity|]. cbn [smin smax stotal smean smedian].
  split; [exact Lo|]. split; [exact Hi|]. split; [exact Tot|]. split; [|exact Med].
  rewrite Lv. pose proof (count_pos l ltac:(intros ->; simpl in *; lia)) as C.
  unfold Qdiv. rewrite <- Qmult_assoc. rewrite (Qmult_comm (/ _)). rewrite Qmult_inv_r by lra. lra.
Qed.

(** The orderings of the statement follow from what the numbers are. *)
Lemma median_between l m lo hi : Least l lo -> Greatest l hi -> Median l m -> lo <= m <= hi.
Proof.
  intros [_ L] [_ G] M.
  destruct M as [A B P _ _ _|A x y B P _ _ X _ E].
  - assert (I : In m l). { apply (Permutation_in _ (Permutation_sym P)). apply in_or_app. right. now left. }
    split; auto.
  - assert (Ix : In x l). { apply (Permutation_in _ (Permutation_sym P)). apply in_or_app. right. now left. }
    assert (Iy : In y l). { apply (Permutation_in _ (Permutation_sym P)). apply in_or_app. right. right. now left. }
    pose proof (L x Ix). pose proof (L y Iy). pose proof (G x Ix). pose proof (G y Iy). lra.
Qed.
Lemma mean_between l s m lo hi : l <> [] -> Least l lo -> Greatest l hi -> Sum l s ->
  m * inject_Z (Z.of_nat (length l)) == s -> lo <= m <= hi.
Proof.
  intros N [_ L] [_ G] S E. pose proof (count_pos l N) as C.
  destruct (sum_bounds l lo hi s) as [B1 B2]; auto.
  rewrite <- E in B1, B2. split; [apply Qmult_le_r in B1|apply Qmult_le_r in B2]; auto.
Qed.
