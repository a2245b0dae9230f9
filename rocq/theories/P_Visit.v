(** Proofs about what is visited before the compilation is frozen. *)
From Verif Require Import Base M_Graph M_Range M_Netlist M_Text M_Interval M_Slice M_Port M_Inst M_Visit S_Visit P_Inst.

Section L.
Context {V : Type}.
Notation sym := (@sym V).
Variable body : nat -> stm.

Definition gives (y : sym) (f : @fev V) : Prop :=
  match f with
  | FVal s => exists ifc ds, y = YVar s ifc ds
  | FExpr id e => (exists pr, y = YBlock id pr) /\ In e (visit_stm (body id))
  | FConn i c => exists p d ms cs, y = YInst i p d false ms cs /\ In c cs
  end.

Lemma visited_in : forall t f, In f (visit_all body t) -> exists y, part_of t y /\ gives y f.
Proof.
  assert (L : forall ms f, (forall m, In m ms -> forall f, In f (visit_all body m) -> exists y, part_of m y /\ gives y f) -> In f (flat_map (visit_all body) ms) ->
     exists m y, In m ms /\ part_of m y /\ gives y f).
  { intros ms f H I. apply in_flat_map in I. destruct I as (m & Im & I). destruct (H m Im f I) as (y & A & B). eauto. }
  apply (sym_rect' (fun t => forall f, In f (visit_all body t) -> exists y, part_of t y /\ gives y f)).
  - intros p int ds f [].
  - intros s ifc ds f [<-|[]]. eexists. split; [apply Po_self|]. cbn. eauto.
  - intros id pr f I. cbn in I. apply in_map_iff in I. destruct I as (e & <- & I). eexists. split; [apply Po_self|]. cbn. eauto.
  - intros u ms H f I. rewrite ?Forall_forall in H. destruct (L ms f H I) as (m & y & A & B & C). exists y. split; [|exact C]. now apply (Po_gen u ms m).
  - intros ms H f I. rewrite ?Forall_forall in H. destruct (L ms f H I) as (m & y & A & B & C). exists y. split; [|exact C]. now apply (Po_scope ms m).
  - intros f [].
  - intros i p d u ms cs H f I. rewrite ?Forall_forall in H. cbn in I. destruct u; [destruct I|]. apply in_app_or in I. destruct I as [I|I].
    + apply in_map_iff in I. destruct I as (c & <- & I). eexists. split; [apply Po_self|]. cbn. repeat eexists. exact I.
    + destruct (L ms f H I) as (m & y & A & B & C). exists y. split; [|exact C]. now apply (Po_inst i p d ms cs m).
Qed.
Lemma in_visited : forall t y f, part_of t y -> gives y f -> In f (visit_all body t).
Proof.
  intros t y f P. induction P; intros G.
  - destruct f; cbn in G.
    + destruct G as (ifc & ds & ->). now left.
    + destruct G as [[pr ->] I]. cbn. now apply in_map.
    + destruct G as (p & d & ms & cs & -> & I). cbn. apply in_or_app. left. now apply in_map.
  - cbn. apply in_flat_map. eauto.
  - cbn. apply in_flat_map. eauto.
  - cbn. apply in_or_app. right. apply in_flat_map. eauto.
Qed.
Lemma visited_iff tops f : In f (flat_map (visit_all body) tops) <-> exists y, in_design tops y /\ gives y f.
Proof.
  rewrite in_flat_map. split.
  - intros (t & It & I). destruct (visited_in t f I) as (y & A & B). exists y. split; [now exists t|exact B].
  - intros (y & (t & It & P) & G). exists t. split; [exact It|]. now apply (in_visited t y).
Qed.

Lemma asked_visited : forall s e, In e (asked false s) -> In e (visit_stm s).
Proof.
  fix F 1. intros [x|l|st init] e I; [exact I| |].
  - cbn in *. induction l as [|s l IH]; [destruct I|]. cbn in *. apply in_app_or in I. apply in_or_app. destruct I as [I|I]; [left; now apply F|right; auto].
  - cbn in *. rewrite andb_true_r in I. exact I.
Qed.

Variable pats : list str.
Variable prop : bool.

Lemma seqo_in {A} : forall (l : list (option (list A))) r x, seqo l = Some r -> In x r -> exists a, In (Some a) l /\ In x a.
Proof.
  induction l as [|[a|] l IH]; intros r x E I; cbn in E; [injection E as <-; destruct I| |discriminate].
  destruct (seqo l) as [b|] eqn:Eb; [|discriminate]. injection E as <-. apply in_app_or in I. destruct I as [I|I]; [exists a; split; [now left|exact I]|].
  destruct (IH b x eq_refl I) as (c & A1 & A2). exists c. split; [now right|exact A2].
Qed.
(** What a deferred block or a handled connection comes from. *)
Definition from (t : sym) (e : iev) : Prop :=
  match e with
  | VDefer _ id pr => part_of t (YBlock id pr)
  | VConn i p o c => exists pa d ms cs, part_of t (YInst i pa d false ms cs) /\ In (CnPort p o c) cs
  | _ => True
  end.
Lemma from_up t t' e : (forall y, part_of t y -> part_of t' y) -> from t e -> from t' e.
Proof. intros H. destruct e; cbn; auto. intros (pa & d & ms & cs & A & B). exists pa, d, ms, cs. auto. Qed.
Lemma handled : forall t own evs e, handle pats prop own t = Some evs -> In e evs -> from t e.
Proof.
  apply (sym_rect' (fun t => forall own evs e, handle pats prop own t = Some evs -> In e evs -> from t e)).
  - intros p int ds own evs e [= <-] [<-|[]]. exact I.
  - intros s ifc ds own evs e [= <-] J. destruct ifc; [|destruct J]. destruct J as [<-|[]]. exact I.
  - intros id pr own evs e [= <-] [<-|[]]. apply Po_self.
  - intros u ms H own evs e E J. rewrite ?Forall_forall in H. cbn in E. destruct u; [injection E as <-; destruct J|].
    destruct (seqo_in _ _ _ E J) as (a & A & B). apply in_map_iff in A. destruct A as (m & E' & Im). apply (from_up m); [intros y; now apply Po_gen|]. eapply H; eauto.
  - intros ms H own evs e E J. rewrite ?Forall_forall in H. cbn in E.
    destruct (seqo_in _ _ _ E J) as (a & A & B). apply in_map_iff in A. destruct A as (m & E' & Im). apply (from_up m); [intros y; now apply Po_scope|]. eapply H; eauto.
  - intros own evs e [= <-] [].
  - intros i p d u ms cs H own evs e E J. rewrite ?Forall_forall in H. cbn [handle] in E. destruct u; [injection E as <-; destruct J|].
    destruct (isBlackBoxInstance pats p d) as [bb|]; [|discriminate]. destruct (seqo_in _ _ _ E J) as (a & [A|[A|A]] & B).
    + injection A as <-. destruct prop; [|destruct B]. destruct B as [<-|[]]. exact I.
    + destruct bb.
      * injection A as <-. destruct B as [<-|B]; [exact I|]. unfold box_ports in B. apply in_flat_map in B. destruct B as (m & _ & B). destruct m; try contradiction; destruct B as [<-|B]; [exact I|destruct B].
      * destruct (seqo_in _ _ _ A B) as (a' & A' & B'). apply in_map_iff in A'. destruct A' as (m & E' & Im). apply (from_up m); [intros y; now apply Po_inst|]. eapply H; eauto.
    + apply in_map_iff in A. destruct A as (c & A & Ic). destruct c as [q o x| |]; cbn in A; [injection A as <-|injection A as <-; destruct B|discriminate]. destruct B as [<-|[]]. cbn.
      exists p, d, ms, cs. split; [apply Po_self|exact Ic].
Qed.
Lemma all_visited own (tops : list sym) evs : traverse pats prop own tops = Some evs ->
  (forall i id pr e, In (VDefer i id pr) evs -> In e (asked false (body id)) -> In (FExpr id e) (flat_map (visit_all body) tops)) /\
  (forall i p o c, In (VConn i p o c) evs -> In (FConn i (CnPort p o c)) (flat_map (visit_all body) tops)).
Proof.
  intros E. assert (H : forall e, In e evs -> exists t, In t tops /\ from t e).
  { intros e I. destruct (seqo_in _ _ _ E I) as (a & A & B). apply in_map_iff in A. destruct A as (t & E' & It). exists t. split; [exact It|]. eapply handled; eauto. }
  split.
  - intros i id pr e I J. destruct (H _ I) as (t & It & P). apply visited_iff. exists (YBlock id pr). split; [now exists t|]. split; [now exists pr|]. now apply asked_visited.
  - intros i p o c I. destruct (H _ I) as (t & It & (pa & d & ms & cs & P & Ic)). apply visited_iff. eexists. split; [exists t; split; [exact It|exact P]|]. cbn. repeat eexists. exact Ic.
Qed.
End L.
