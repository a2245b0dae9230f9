(** Specification of reachability and paths, for an arbitrary edge relation. *)
From Verif Require Import Base.

Inductive Reach (R : nat -> nat -> Prop) (a : nat) : nat -> Prop :=
| reach_refl : Reach R a a
| reach_step b c : Reach R a b -> R b c -> Reach R a c.

(** One or more steps. *)
Definition Reach1 (R : nat -> nat -> Prop) (a b : nat) : Prop :=
  exists c, R a c /\ Reach R c b.

(** [Walk R l]: consecutive elements of [l] are related. *)
Fixpoint Walk (R : nat -> nat -> Prop) (l : list nat) : Prop :=
  match l with
  | [] => True
  | x :: r => match r with [] => True | y :: _ => R x y /\ Walk R r end
  end.

(** A closed walk without repeated nodes, listed once round. *)
Definition SimpleCycle (R : nat -> nat -> Prop) (c : list nat) : Prop :=
  exists h t, c = h :: t /\ NoDup c /\ Walk R c /\ R (last c h) h.

Lemma reach_trans R a b c : Reach R a b -> Reach R b c -> Reach R a c.
Proof. intros H1 H2. induction H2; eauto using Reach. Qed.

Lemma reach_one (R : nat -> nat -> Prop) a b : R a b -> Reach R a b.
Proof. intros H. eapply reach_step; [apply reach_refl|assumption]. Qed.

Lemma reach1_iff R a b : Reach1 R a b <-> exists c, Reach R a c /\ R c b.
Proof.
  split.
  - intros (c & H & Hr). revert H. induction Hr as [|x y Hr IH Hxy]; intros H.
    + exists a. split; [constructor|assumption].
    + destruct (IH H) as (d & Hd1 & Hd2). exists x. split; [|assumption].
      eapply reach_step; eauto.
  - intros (c & H & Hc). revert b Hc. induction H as [|x y Hr IH Hxy]; intros b Hc.
    + exists b. split; [assumption|constructor].
    + destruct (IH _ Hxy) as (d & Hd1 & Hd2). exists d. split; [assumption|].
      eapply reach_step; eauto.
Qed.

Lemma reach_cases R a b : Reach R a b -> a = b \/ Reach1 R a b.
Proof.
  intros H. destruct H as [|x y H Hxy]; [now left|right]. apply reach1_iff. eauto.
Qed.

Lemma reach1_reach R a b : Reach1 R a b -> Reach R a b.
Proof. intros (c & H & Hr). eapply reach_trans; [apply reach_one; eauto|assumption]. Qed.

Lemma reach_converse (R Q : nat -> nat -> Prop) :
  (forall x y, R x y -> Q y x) -> forall a b, Reach R a b -> Reach Q b a.
Proof.
  intros H a b Hr. induction Hr as [|x y Hr IH Hxy]; [constructor|].
  eapply reach_trans; [apply reach_one; eauto|assumption].
Qed.

Lemma walk_app R l1 x l2 : Walk R (l1 ++ [x]) -> Walk R (x :: l2) -> Walk R (l1 ++ x :: l2).
Proof.
  induction l1 as [|a l1 IH]; simpl; intros H1 H2; [assumption|].
  destruct l1 as [|b l1]; simpl in *; [tauto|]. split; [tauto|]. apply IH; tauto.
Qed.

Lemma walk_app_inv R l1 l2 : Walk R (l1 ++ l2) -> Walk R l1 /\ Walk R l2.
Proof.
  induction l1 as [|a l1 IH]; simpl; intros H; [tauto|].
  destruct l1 as [|b l1]; simpl in *.
  - split; [exact I|]. destruct l2; simpl in *; tauto.
  - destruct H as [Hab H]. destruct (IH H). tauto.
Qed.

Lemma walk_cons_inv R a b l : Walk R (a :: b :: l) -> R a b /\ Walk R (b :: l).
Proof. intros [H1 H2]. split; assumption. Qed.

Lemma last_indep {A} (l : list A) x d1 d2 : last (x :: l) d1 = last (x :: l) d2.
Proof. revert x. induction l as [|y l IH]; intros x; [reflexivity|]. apply (IH y). Qed.

Lemma walk_reach R l : forall a b, Walk R (a :: l) -> last (a :: l) a = b -> Reach R a b.
Proof.
  induction l as [|x l IH]; intros a b H Hl; simpl in *.
  - subst. constructor.
  - destruct H as [Hax H]. eapply reach_trans; [apply reach_one; eauto|].
    apply IH; [assumption|]. rewrite <- Hl. apply (last_indep l x x a).
Qed.
