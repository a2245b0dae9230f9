(** Proofs for C119: what follows in-edges or depends on addresses, as sets. *)
From Coq Require Import Ascii String Permutation.
From Verif Require Import Base M_Graph M_Range M_Netlist M_DFS M_Path M_Query M_Cycle M_Text M_Serial M_Dot M_Report M_Cli
  S_Graph S_Reach S_Netlist S_Serial S_Query S_Cli P_Path P_Query P_Cli P_Load1.
Notation length := List.length.

(** Row lists that agree up to order, or no rows in either. *)
Definition rows_same {A} (x y : cres (list A)) : Prop :=
  (exists t t', x = COk t /\ y = COk t' /\ Permutation t t') \/ (x = CBad /\ y = CBad).
Lemma rows_trans {A} (x y z : cres (list A)) : rows_same x y -> rows_same y z -> rows_same x z.
Proof.
  intros [(t & t' & A1 & A2 & P)|[A1 A2]] [(u & u' & B1 & B2 & Q)|[B1 B2]]; try congruence.
  - left. exists t, u'. repeat split; auto. replace u with t' in Q by congruence. eapply Permutation_trans; eauto.
  - right. auto.
Qed.
Lemma traverse_shape {A B} (f : A -> cres B) l : (forall a m, f a <> CMsg m) -> (exists t, ctraverse f l = COk t) \/ ctraverse f l = CBad.
Proof.
  intros H. induction l as [|a l IH]; cbn; [eauto|]. destruct (f a) eqn:F; cbn; [|now destruct (H a m)|auto].
  destruct IH as [[t ->]| ->]; cbn; eauto.
Qed.
Lemma traverse_perm {A B} (f : A -> cres B) l l' : (forall a m, f a <> CMsg m) -> Permutation l l' -> rows_same (ctraverse f l) (ctraverse f l').
Proof.
  intros H P. induction P as [|a l l' P IH|a b l|l l' l'' P IH P' IH'].
  - left. exists [], []. auto.
  - cbn. destruct (f a) eqn:F; cbn; [|now destruct (H a m)|right; auto].
    destruct IH as [(t & t' & -> & -> & Q)|[-> ->]]; cbn; [left|right; auto]. eexists _, _. repeat split; auto.
  - cbn. destruct (traverse_shape f l H) as [[t X]|X]; rewrite X; destruct (f a) eqn:F, (f b) eqn:G; cbn;
      try solve [exfalso; eapply H; eauto]; try (right; split; reflexivity).
    left. eexists _, _. repeat split. constructor.
  - eapply rows_trans; eauto.
Qed.
Lemma match_up {A B} (P : A -> B -> Prop) l' : forall l, NoDup l -> NoDup l' ->
  (forall a b c, P a b -> P a c -> b = c) -> (forall a b c, P a c -> P b c -> a = b) ->
  (forall a, In a l -> exists b, In b l' /\ P a b) -> (forall b, In b l' -> exists a, In a l /\ P a b) ->
  exists l2, Permutation l l2 /\ Forall2 P l2 l'.
Proof.
  induction l' as [|b l' IH]; intros l N N' Fn Ij Ha Hb.
  - destruct l as [|a l]; [exists []; auto|]. destruct (Ha a (or_introl eq_refl)) as (b & [] & _).
  - destruct (Hb b (or_introl eq_refl)) as (a & I & H). apply in_split in I as (l1 & l2 & ->).
    inversion N'; subst. destruct (IH (l1 ++ l2)) as (k & Pk & Fk); auto.
    + eapply NoDup_remove_1; eauto.
    + intros c Ic. assert (Ic' : In c (l1 ++ a :: l2)) by (rewrite in_app_iff in Ic |- *; cbn; tauto).
      destruct (Ha c Ic') as (d & [<-|Id] & Hd); [|eauto]. exfalso. rewrite (Ij _ _ _ H Hd) in N. apply (NoDup_remove_2 _ _ _ N Ic).
    + intros d Id. destruct (Hb d (or_intror Id)) as (c & Ic & Hc). exists c. split; [|exact Hc].
      rewrite in_app_iff in Ic |- *. destruct Ic as [Ic|[<-|Ic]]; auto. exfalso. rewrite (Fn _ _ _ H Hc) in *. contradiction.
    + exists (a :: k). split; [|constructor; auto]. rewrite <- Pk. symmetry. apply Permutation_middle.
Qed.
Lemma rows_match {A B C} (P : A -> B -> Prop) (f : A -> cres C) (f' : B -> cres C) l l' : NoDup l -> NoDup l' ->
  (forall a b c, P a b -> P a c -> b = c) -> (forall a b c, P a c -> P b c -> a = b) ->
  (forall a, In a l -> exists b, In b l' /\ P a b) -> (forall b, In b l' -> exists a, In a l /\ P a b) ->
  (forall a b, P a b -> f a = f' b) -> (forall a m, f a <> CMsg m) -> rows_same (ctraverse f l) (ctraverse f' l').
Proof.
  intros N N' Fn Ij A1 B1 H NM. destruct (match_up P l' l N N' Fn Ij A1 B1) as (l2 & Pm & F).
  rewrite <- (ctraverse_rel P f f' l2 l' F H). now apply traverse_perm.
Qed.

Section Same.
Variable cval : Type.
Variables g g' : nlg cval.
Hypothesis M : Mirror (lg g).
Hypothesis M' : Mirror (lg g').
Hypothesis Vw : view g' = view g.
Notation ns := (gnodes (lg g)).
Notation ns' := (gnodes (lg g')).
Notation nl := (nl_of cval g).
Notation nl' := (nl_of cval g').
Notation R := (R cval g g').
Notation E := (E cval g g').

Lemma R_sym n n' : R n n' -> P_Load1.R cval g' g n' n.
Proof. intros (i & A & B). exists i. auto. Qed.
Lemma conn_rel a a' b : R a a' -> Conn nl a b -> exists b', R b b' /\ Conn nl' a' b'.
Proof.
  intros K (e & I & <- & D). destruct (forall2_in_l _ _ _ _ (R_outs cval g g' M M' Vw _ _ K) I) as (e' & I' & H).
  exists (etgt e'). assert (H' := H). destruct H as (_ & T & _). split; [exact T|]. exists e'. split; [exact I'|]. split; [reflexivity|].
  rewrite <- (E_att cval g g' _ _ H'). exact D.
Qed.
Lemma conn_back a b b' : R b b' -> Conn nl a b -> exists a', R a a' /\ Conn nl' a' b'.
Proof.
  intros K C. assert (C' := C). destruct C' as (e & I & T & _). destruct (mir_out _ M _ _ I) as (_ & Ia & _).
  destruct (R_total cval g g' Vw a Ia) as (a' & Ka). destruct (conn_rel _ _ _ Ka C) as (b2 & Kb & C2).
  exists a'. split; [exact Ka|]. now rewrite <- (R_fun cval g g' M _ _ _ Kb K).
Qed.
Lemma kind_rel n n' : R n n' -> nkind (ninf nl n) = nkind (ninf nl' n').
Proof. intros K. cbn. now rewrite (R_data cval g g' Vw _ _ K). Qed.
Lemma comb_reach n n' m : R n n' -> Reach (Comb nl) n m -> exists m', R m m' /\ Reach (Comb nl') n' m'.
Proof.
  intros K. induction 1 as [|b c H IH [C S]]; [exists n'; split; [exact K|constructor]|]. destruct IH as (b' & Kb & Rb).
  destruct (conn_rel _ _ _ Kb C) as (c' & Kc & Cc). exists c'. split; [exact Kc|]. econstructor; [exact Rb|]. split; [exact Cc|].
  now rewrite <- (kind_rel _ _ Kc).
Qed.
Lemma back_reach n n' m : R n n' -> Reach (CombBack nl) n m -> exists m', R m m' /\ Reach (CombBack nl') n' m'.
Proof.
  intros K. induction 1 as [|b c H IH [C S]]; [exists n'; split; [exact K|constructor]|]. destruct IH as (b' & Kb & Rb).
  destruct (conn_back _ _ _ Kb C) as (c' & Kc & Cc). exists c'. split; [exact Kc|]. econstructor; [exact Rb|]. split; [exact Cc|].
  now rewrite <- (kind_rel _ _ Kc).
Qed.
Lemma in_edge_rel n n' e : R n n' -> In e (ins (nst (lg g) n)) -> exists e', In e' (ins (nst (lg g') n')) /\ E e e'.
Proof.
  intros K I. destruct (mir_in _ M _ _ I) as (T & _ & Is & Io). destruct (R_total cval g g' Vw _ Is) as (s' & Ks).
  destruct (forall2_in_l _ _ _ _ (R_outs cval g g' M M' Vw _ _ Ks) Io) as (e' & I' & H). exists e'. split; [|exact H].
  destruct (mir_out _ M' _ _ I') as (_ & _ & _ & J). destruct H as (_ & Ht & _). rewrite T in Ht.
  now rewrite (R_fun cval g g' M _ _ _ Ht K) in J.
Qed.
Lemma clocks_rel n n' s k : R n n' -> Clocks nl n s k -> exists s', R s s' /\ Clocks nl' n' s' k.
Proof.
  intros K (e & I & <- & A1 & A2 & A3). destruct (in_edge_rel _ _ _ K I) as (e' & I' & H). exists (esrc e').
  assert (H' := H). destruct H as (Hs & _). split; [exact Hs|]. exists e'. rewrite <- (E_att cval g g' _ _ H'). auto.
Qed.
Lemma gates_rel n n' s k : R n n' -> Gates nl n s k -> exists s', R s s' /\ Gates nl' n' s' k.
Proof.
  intros K [[S C]|(S & u & st & Ru & Cu & Ss & C)].
  - destruct (clocks_rel _ _ _ _ K C) as (s' & Ks & C'). exists s'. split; [exact Ks|]. left. rewrite <- (kind_rel _ _ K). auto.
  - destruct (comb_reach _ _ _ K Ru) as (u' & Ku & Ru'). destruct (conn_rel _ _ _ Ku Cu) as (st' & Kst & Cu').
    destruct (clocks_rel _ _ _ _ Kst C) as (s' & Ks & C'). exists s'. split; [exact Ks|]. right. rewrite <- (kind_rel _ _ K). split; [exact S|].
    exists u', st'. rewrite <- (kind_rel _ _ Kst). auto.
Qed.
Lemma source_rel n n' : R n n' -> Source cval g n -> Source cval g' n'.
Proof.
  intros K (m & N & Rm & Pm & I). destruct (back_reach _ _ _ K Rm) as (m' & Km & Rm'). exists m'. split; [|split; [exact Rm'|]].
  - intros ->. apply N. exact (R_inj cval g g' M' _ _ _ Km K).
  - split; [now rewrite <- (kind_rel _ _ Km)|]. change (ins (nst (lg g') m') = []). change (ins (nst (lg g) m) = []) in I.
    destruct (ins (nst (lg g') m')) as [|e' r] eqn:X; [reflexivity|exfalso].
    destruct (mir_in _ M' m' e') as (T & _ & Is & Io); [rewrite X; now left|].
    destruct (R_total' cval g g' Vw _ Is) as (s & Ks). destruct (forall2_in_r _ _ _ _ (R_outs cval g g' M M' Vw _ _ Ks) Io) as (e & Ie & H).
    destruct (mir_out _ M _ _ Ie) as (_ & _ & _ & J). destruct H as (_ & Ht & _). rewrite T in Ht.
    rewrite (R_inj cval g g' M' _ _ _ Ht Km), I in J. destruct J.
Qed.
Lemma outs_rel name : Forall2 E (edges_of nl name) (edges_of nl' name).
Proof.
  unfold edges_of. change (gnodes (ng nl)) with ns. change (gnodes (ng nl')) with ns'.
  pose proof (R_nodes cval g g' Vw) as F. induction F as [|a b l l' K F IH]; cbn; [constructor|]. apply Forall2_app; [|exact IH].
  apply forall2_filter; [exact (R_outs cval g g' M M' Vw _ _ K)|]. intros e e' H. unfold sym_is. now rewrite (E_att cval g g' _ _ H).
Qed.
Lemma raw_rel name q x : In x (raw_bd nl name q) -> exists n', R (snd x) n' /\ In (fst x, n') (raw_bd nl' name q).
Proof.
  unfold raw_bd. rewrite in_flat_map. intros (e & I & H). destruct (forall2_in_l _ _ _ _ (outs_rel name) I) as (e' & I' & K).
  unfold ebounds in H. rewrite (E_att cval g g' _ _ K) in H. destruct (intersection _ q) as [r|] eqn:X in H; [|destruct H]. destruct H as [<-|[]].
  exists (esrc e'). split; [apply K|]. apply in_flat_map. exists e'. split; [exact I'|]. unfold ebounds. rewrite X. now left.
Qed.
End Same.
