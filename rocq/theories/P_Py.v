(** Proofs about the Python analyses: texts, sorting, sets and dicts. *)
From Coq Require Import Ascii String Sorted Permutation.
From Verif Require Import Base M_Graph S_Graph S_Reach M_Range M_Netlist S_Netlist M_Text M_Serial M_Path M_Query M_Report M_Py
  S_Query S_Cli S_Py P_Path P_Query.
Notation length := List.length.

(** * Texts *)
Lemma ascii_nat_inj x y : nat_of_ascii x = nat_of_ascii y -> x = y.
Proof. intros H. rewrite <- (ascii_nat_embedding x), <- (ascii_nat_embedding y). now rewrite H. Qed.
Lemma text_lt_iff : forall a b, TextLt a b <-> str_leb a b = true /\ a <> b.
Proof.
  intros a b. split.
  - intros [p c r|p x y r s L].
    + split; [induction p as [|d p IH]; cbn [str_leb app]; [reflexivity|]; rewrite Nat.ltb_irrefl, Nat.eqb_refl; exact IH|].
      intros E. apply (f_equal (@length ascii)) in E. rewrite app_length in E. cbn in E. lia.
    + split.
      * induction p as [|d p IH]; cbn [str_leb app]; [apply Nat.ltb_lt in L; now rewrite L|]. rewrite Nat.ltb_irrefl, Nat.eqb_refl. exact IH.
      * intros E. apply app_inv_head in E. injection E as -> _. lia.
  - revert b. induction a as [|x a IH]; intros [|y b]; cbn [str_leb app]; intros [H N].
    + now destruct N.
    + apply (tl_prefix [] y b).
    + discriminate.
    + apply orb_true_iff in H. destruct H as [H|H].
      * apply Nat.ltb_lt in H. apply (tl_char [] x y a b H).
      * apply andb_true_iff in H. destruct H as [E H]. apply Nat.eqb_eq, ascii_nat_inj in E. subst y.
        assert (T : TextLt a b) by (apply IH; split; [exact H|congruence]).
        destruct T as [p c r|p u v r s L]; [apply (tl_prefix (x :: p))|apply (tl_char (x :: p) u v r s L)].
Qed.
Lemma str_leb_refl a : str_leb a a = true.
Proof. induction a as [|x a IH]; cbn [str_leb app]; [reflexivity|]. now rewrite Nat.ltb_irrefl, Nat.eqb_refl. Qed.
Lemma str_leb_total a : forall b, str_leb a b = true \/ str_leb b a = true.
Proof.
  induction a as [|x a IH]; intros [|y b]; cbn [str_leb app]; auto.
  destruct (lt_eq_lt_dec (nat_of_ascii x) (nat_of_ascii y)) as [[L|E]|L].
  - left. apply Nat.ltb_lt in L. now rewrite L.
  - rewrite E, Nat.ltb_irrefl, Nat.eqb_refl. apply IH.
  - right. apply Nat.ltb_lt in L. now rewrite L.
Qed.
Lemma str_leb_trans a : forall b c, str_leb a b = true -> str_leb b c = true -> str_leb a c = true.
Proof.
  induction a as [|x a IH]; intros [|y b] [|z c]; cbn [str_leb app]; auto; try discriminate.
  rewrite !orb_true_iff, !andb_true_iff, !Nat.ltb_lt, !Nat.eqb_eq. intros [L|[E H]] [L'|[E' H']]; try (left; lia). right. split; [lia|eauto].
Qed.
Lemma str_leb_antisym a : forall b, str_leb a b = true -> str_leb b a = true -> a = b.
Proof.
  induction a as [|x a IH]; intros [|y b]; cbn [str_leb app]; auto; try discriminate.
  rewrite !orb_true_iff, !andb_true_iff, !Nat.ltb_lt, !Nat.eqb_eq. intros [L|[E H]] [L'|[E' H']]; try lia.
  f_equal; [now apply ascii_nat_inj|auto].
Qed.

(** * Sorting *)
Section Sort.
Context {A : Type}.
Variable leb : A -> A -> bool.
Hypothesis tot : forall a b, leb a b = true \/ leb b a = true.
Hypothesis tra : forall a b c, leb a b = true -> leb b c = true -> leb a c = true.
Lemma insert_perm x : forall l, Permutation (x :: l) (insert_by leb x l).
Proof. induction l as [|y l IH]; cbn; [reflexivity|]. destruct (leb x y); [reflexivity|]. rewrite perm_swap. now constructor. Qed.
Lemma sorted_perm l : Permutation l (sorted_by leb l).
Proof. induction l as [|x l IH]; cbn; [constructor|]. rewrite <- insert_perm. now constructor. Qed.
Lemma insert_sorted x : forall l, StronglySorted (fun a b => leb a b = true) l -> StronglySorted (fun a b => leb a b = true) (insert_by leb x l).
Proof.
  induction 1 as [|y l H IH F]; cbn; [repeat constructor|]. destruct (leb x y) eqn:E.
  - constructor; [now constructor|]. constructor; [exact E|]. rewrite Forall_forall in *. intros z I. eauto.
  - constructor; [exact IH|]. apply (Permutation_Forall (insert_perm x l)). constructor; [|exact F]. destruct (tot x y); congruence.
Qed.
Lemma sorted_sorted l : StronglySorted (fun a b => leb a b = true) (sorted_by leb l).
Proof. induction l as [|x l IH]; cbn; [constructor|]. now apply insert_sorted. Qed.
Lemma sorted_in l x : In x (sorted_by leb l) <-> In x l.
Proof. split; apply Permutation_in; [symmetry|]; apply sorted_perm. Qed.
End Sort.
Lemma strict_sorted {A} (R R' : A -> A -> Prop) l : StronglySorted R l -> NoDup l -> (forall a b, R a b -> a <> b -> R' a b) -> StronglySorted R' l.
Proof.
  intros H. induction H as [|x l H IH F]; intros N S; [constructor|]. inversion N as [|? ? Nx Nl]; subst. constructor; [auto|].
  rewrite Forall_forall in *. intros y I. apply S; [auto|]. intros ->. contradiction.
Qed.
Lemma sorted_map {A B} (f : A -> B) (R : B -> B -> Prop) l : StronglySorted (fun a b => R (f a) (f b)) l -> StronglySorted R (map f l).
Proof. induction 1 as [|x l H IH F]; cbn; constructor; [exact IH|]. rewrite Forall_forall in *. intros y I. apply in_map_iff in I. destruct I as (z & <- & I). auto. Qed.
Lemma text_sorted l : NoDup l -> StronglySorted TextLt (sorted_by str_leb l).
Proof.
  intros N. apply (strict_sorted (fun a b => str_leb a b = true)).
  - apply sorted_sorted; [intros; apply str_leb_total|intros a b c; apply str_leb_trans].
  - eapply Permutation_NoDup; [apply sorted_perm|exact N].
  - intros a b H Ne. apply text_lt_iff. auto.
Qed.
Lemma keys_sorted {V} (l : list (str * V)) : NoDup (map fst l) ->
  StronglySorted TextLt (map fst (sorted_by (fun x y => str_leb (fst x) (fst y)) l)).
Proof.
  intros N. apply (strict_sorted (fun a b => str_leb a b = true)).
  - apply sorted_map, sorted_sorted; [intros; apply str_leb_total|intros a b c; apply str_leb_trans].
  - eapply Permutation_NoDup; [apply Permutation_map, sorted_perm|exact N].
  - intros a b H Ne. apply text_lt_iff. auto.
Qed.

(** * Sets and dicts *)
Lemma set_add_in s x y : In y (set_add s x) <-> In y s \/ y = x.
Proof.
  unfold set_add. destruct (existsb (str_eqb x) s) eqn:E.
  - split; [auto|]. intros [I| ->]; [exact I|]. apply existsb_exists in E. destruct E as (z & I & Q). apply str_eqb_eq in Q. now subst.
  - rewrite in_app_iff. cbn. intuition congruence.
Qed.
Lemma set_add_nodup s x : NoDup s -> NoDup (set_add s x).
Proof.
  intros N. unfold set_add. destruct (existsb (str_eqb x) s) eqn:E; [exact N|].
  apply (Permutation_NoDup (l := x :: s)); [apply Permutation_cons_append|]. constructor; [|exact N].
  intros I. apply not_true_iff_false in E. apply E, existsb_exists. exists x. split; [exact I|now apply str_eqb_eq].
Qed.
Lemma union_in l : forall s y, In y (fold_left set_add l s) <-> In y s \/ In y l.
Proof. induction l as [|x l IH]; intros s y; cbn; [tauto|]. rewrite IH, set_add_in. intuition congruence. Qed.
Lemma union_nodup l : forall s, NoDup s -> NoDup (fold_left set_add l s).
Proof. induction l as [|x l IH]; intros s N; cbn; [exact N|]. apply IH, set_add_nodup, N. Qed.

Section Dict.
Context {K V : Type}.
Variable eqb : K -> K -> bool.
Hypothesis eqb_eq : forall a b, eqb a b = true <-> a = b.
Variable e : V.
Lemma upd_keys f k : forall d x, In x (map fst (dict_upd eqb e f k d)) <-> In x (map fst d) \/ x = k.
Proof.
  induction d as [|[k' v] d IH]; intros x; cbn; [intuition congruence|]. destruct (eqb k k') eqn:E; cbn.
  - apply eqb_eq in E. subst. intuition congruence.
  - rewrite IH. intuition congruence.
Qed.
Lemma upd_nodup f k : forall d, NoDup (map fst d) -> NoDup (map fst (dict_upd eqb e f k d)).
Proof.
  induction d as [|[k' v] d IH]; cbn; intros N; [repeat constructor; intros []|]. inversion N as [|? ? N1 N2]; subst.
  destruct (eqb k k') eqn:E; cbn; constructor; auto. intros I. apply upd_keys in I. destruct I as [I|I]; [auto|].
  apply not_true_iff_false in E. apply E, eqb_eq. congruence.
Qed.
(** The value of each key. *)
Lemma upd_in f k : forall d, NoDup (map fst d) -> forall x v, In (x, v) (dict_upd eqb e f k d) <->
  (x <> k /\ In (x, v) d) \/ (x = k /\ ((exists w, In (k, w) d /\ v = f w) \/ (~ In k (map fst d) /\ v = f e))).
Proof.
  induction d as [|[k' u] d IH]; intros N x v; cbn.
  - split; [intros [[= <- <-]|[]]; right; auto|]. intros [[_ []]|[-> [(w & [] & _)|[_ ->]]]]. now left.
  - inversion N as [|? ? N1 N2]; subst. destruct (eqb k k') eqn:E; cbn.
    + apply eqb_eq in E. subst k'. split.
      * intros [[= <- <-]|I]; [right; split; [reflexivity|left; exists u; auto]|]. left. split; [|auto]. intros ->. apply N1. now apply (in_map fst) in I.
      * intros [[Ne [[= <- <-]|I]]|[-> [(w & [[= <-]|I] & ->)|[Ni ->]]]]; auto; [congruence| |].
        -- exfalso. apply N1. now apply (in_map fst) in I.
        -- exfalso. apply Ni. now left.
    + assert (Ne : k <> k') by (intros ->; rewrite (proj2 (eqb_eq k' k') eq_refl) in E; discriminate). rewrite (IH N2). split.
      * intros [[= <- <-]|[[A B]|[-> [(w & I & ->)|[Ni ->]]]]]; auto.
        -- right. split; [reflexivity|]. left. exists w. auto.
        -- right. split; [reflexivity|]. right. split; [|reflexivity]. intros [Q|Q]; [congruence|contradiction].
      * intros [[A [[= <- <-]|B]]|[-> [(w & [[= Q _]|I] & ->)|[Ni ->]]]]; auto; [congruence| |].
        -- right. right. split; [reflexivity|]. left. eauto.
        -- right. right. split; [reflexivity|]. right. split; [|reflexivity]. intros Q. apply Ni. now right.
Qed.
End Dict.
