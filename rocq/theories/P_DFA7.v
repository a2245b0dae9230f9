(** Proofs about the data-flow analysis: straight-line blocks, the legacy path. *)
From Coq Require Import Sorted.
From Verif Require Import Base M_Graph M_Range M_Netlist M_Annot M_Interval M_Heap M_Drivers M_Pending
  M_DFA S_Interval S_Drivers S_DFA P_Interval P_Heap P_Drivers P_DriversX P_DFA P_DFA2 P_DFA3 P_DFA4 P_DFA5.
Local Open Scope Z_scope.

Lemma src_lsp automatic rhs : flat_map (src_refs automatic) (map RLsp rhs) = rhs.
Proof. induction rhs as [|x r IH]; cbn; [reflexivity|now rewrite IH]. Qed.

Lemma straight_paths automatic : forall ls, paths automatic (straight ls) = [blocking_writes ls].
Proof.
  induction ls as [|[[[l bl] lhs] rhs] ls IH]; [reflexivity|]. cbn [straight paths flat_map]. rewrite IH.
  unfold cat, blocking_writes, seg_writes. cbn. now destruct bl; cbn; rewrite ?app_nil_r.
Qed.
Lemma straight_all automatic : forall ls w,
  In w (all_writes (straight ls) ++ nb_writes automatic (straight ls)) <-> In w (blocking_writes ls ++ nonblocking_writes ls).
Proof.
  assert (H : forall ls, all_writes (straight ls) = blocking_writes ls /\ nb_writes automatic (straight ls) = nonblocking_writes ls).
  { induction ls as [|[[[l bl] lhs] rhs] ls [IH1 IH2]]; [auto|]. cbn [straight all_writes nb_writes flat_map].
    rewrite IH1, IH2. unfold blocking_writes, nonblocking_writes, seg_writes. cbn [flat_map slhs].
    rewrite !app_nil_r. destruct bl; auto. }
  intros ls w. destruct (H ls) as [-> ->]. tauto.
Qed.
Lemma straight_nb automatic ls : nb_writes automatic (straight ls) = nonblocking_writes ls.
Proof.
  induction ls as [|[[[l bl] lhs] rhs] ls IH]; [auto|]. cbn [straight nb_writes flat_map]. rewrite IH.
  unfold nonblocking_writes. cbn [flat_map slhs]. rewrite app_nil_r. destruct bl; auto.
Qed.
Lemma straight_live : forall ls, live (straight ls) = true.
Proof. induction ls as [|[[[l bl] lhs] rhs] ls IH]; [reflexivity|]. cbn. exact IH. Qed.
Lemma straight_no_self automatic : forall ls,
  (forall l lhs rhs, In (l, true, lhs, rhs) ls -> no_common (writes l lhs) rhs) -> no_self automatic (straight ls).
Proof.
  induction ls as [|[[[l bl] lhs] rhs] ls IH]; intros H; [exact I|]. cbn [straight no_self flat_map srhs].
  rewrite !app_nil_r, src_lsp. split.
  - unfold seg_writes. destruct bl; [|intros ? ? ? ? ? []]. cbn [slhs]. apply (H l lhs rhs). now left.
  - apply IH. intros. apply (H l0 lhs0 rhs0). now right.
Qed.

Lemma straight_reads automatic : forall ls T k x, In (T, k, x) (lreads automatic (straight ls)) <->
  exists pre l bl lhs rhs post, ls = pre ++ (l, bl, lhs, rhs) :: post /\ T = [blocking_writes pre] /\ k = KAssign l /\ In x rhs.
Proof.
  induction ls as [|[[[l bl] lhs] rhs] ls IH]; intros T k x.
  - cbn. split; [easy|]. intros (pre & ? & ? & ? & ? & ? & E & _). destruct pre; discriminate.
  - cbn [straight lreads paths flat_map]. unfold assign_reads. cbn [flat_map srhs]. rewrite !app_nil_r, src_lsp, in_app_iff. split.
    + intros [I|I].
      * apply in_map_iff in I. destruct I as (y & [= <- <- <-] & I). exists [], l, bl, lhs, rhs, ls. auto.
      * apply in_map_iff in I. destruct I as ([[T' k'] y] & E & I). cbn in E. injection E as <- -> ->.
        apply IH in I. destruct I as (pre & l' & bl' & lhs' & rhs' & post & -> & -> & -> & I).
        exists ((l, bl, lhs, rhs) :: pre), l', bl', lhs', rhs', post. split; [reflexivity|]. split; [|auto].
        unfold cat, blocking_writes, seg_writes. cbn. now destruct bl.
    + intros (pre & l' & bl' & lhs' & rhs' & post & E & -> & -> & I). destruct pre as [|y pre].
      * cbn in E. injection E as -> -> -> -> ->. left. apply in_map_iff. exists x. auto.
      * injection E as <- ->. right. apply in_map_iff. exists ([blocking_writes pre], KAssign l', x). split.
        -- unfold after, cat, blocking_writes, seg_writes. cbn. now destruct bl.
        -- apply IH. exists pre, l', bl', lhs', rhs', post. auto.
Qed.

(** * The legacy path does not look at automatic variables *)
Lemma reads_at_in T k rs T' k' x : In (T', k', x) (reads_at T k rs) -> In x rs.
Proof. intros I. apply in_map_iff in I. destruct I as (y & [= _ _ <-] & I). exact I. Qed.
Lemma static_in automatic l x : In x (static automatic l) -> automatic (fst x) = false.
Proof. intros I. apply filter_In in I. destruct I as [_ I]. now apply negb_true_iff in I. Qed.

Lemma legacy_reads automatic :
  (forall p, legacy p = true -> forall T k x, In (T, k, x) (reads automatic p) -> automatic (fst x) = false) /\
  (forall c, clegacy c = true -> forall l T k x, In (T, k, x) (creads automatic l c) -> automatic (fst x) = false).
Proof.
  assert (R : forall T k rs T' k' x, In (T', k', x) (reads_at T k (static automatic rs)) -> automatic (fst x) = false).
  { intros T k rs T' k' x I. apply reads_at_in in I. now apply static_in in I. }
  apply stmt_clist; cbn [legacy clegacy reads creads].
  - intros _ T k x [].
  - discriminate.
  - intros l bl lhs rhs _ T k x I. eauto.
  - intros p IHp q IHq L T k x I. apply andb_true_iff in L. destruct L as [L1 L2].
    apply in_app_or in I. destruct I as [I|I]; [eauto|]. apply in_map_iff in I.
    destruct I as ([[T' k'] y] & E & I). cbn in E. injection E as _ _ <-. eauto.
  - intros l k c t IH L T k' x I. apply in_app_or in I. destruct I as [I|I].
    + destruct k; [easy|eauto].
    + destruct k as [[|]|]; eauto. easy.
  - intros l k c t IHt e IHe L T k' x I. apply andb_true_iff in L. destruct L as [L1 L2].
    rewrite !in_app_iff in I. destruct I as [I|[I|I]]; destruct k as [[|]|]; eauto; easy.
  - intros l c items IH L T k x I. apply in_app_or in I. destruct I as [I|I]; eauto.
  - intros _ l T k x [].
  - eauto.
  - intros c p IHp r IHr L l T k x I. apply andb_true_iff in L. destruct L as [L1 L2].
    rewrite !in_app_iff in I. destruct I as [I|[I|I]]; eauto.
Qed.

Lemma writes_sym l xs w : In w (writes l xs) -> exists x, In x xs /\ snd (fst w) = fst x.
Proof. intros I. apply in_map_iff in I. destruct I as (x & <- & I). exists x. auto. Qed.
Definition clean (automatic : nat -> bool) (t : trace) : Prop := forall w, In w t -> automatic (snd (fst w)) = false.
Lemma clean_app automatic t u : clean automatic t -> clean automatic u -> clean automatic (t ++ u).
Proof. intros A B w I. apply in_app_or in I. destruct I; auto. Qed.
Lemma legacy_writes automatic :
  (forall p, legacy p = true -> (forall t, In t (paths automatic p) -> clean automatic t) /\ clean automatic (nb_writes automatic p)) /\
  (forall c, clegacy c = true -> (forall t, In t (cpaths automatic c) -> clean automatic t) /\ clean automatic (cnb_writes automatic c)).
Proof.
  assert (S : forall l xs, clean automatic (writes l (static automatic xs))).
  { intros l xs w I. apply writes_sym in I. destruct I as (x & I & ->). now apply static_in in I. }
  assert (Z : clean automatic []) by easy.
  apply stmt_clist; cbn [legacy clegacy paths cpaths nb_writes cnb_writes].
  - intros _. split; [|easy]. intros t [<-|[]]. easy.
  - discriminate.
  - intros l bl lhs rhs _. split; [intros t [<-|[]]|]; destruct bl; auto.
  - intros p IHp q IHq L. apply andb_true_iff in L. destruct L as [L1 L2].
    destruct (IHp L1) as [P1 P2], (IHq L2) as [Q1 Q2]. split; [|now apply clean_app].
    intros t I. apply in_cat in I. destruct I as (a & b & Ia & Ib & ->). apply clean_app; auto.
  - intros l k c t IH L. destruct (IH L) as [P1 P2]. split; [|exact P2]. intros t' I. apply in_app_or in I.
    destruct I as [I|I]; destruct k as [[|]|]; cbn in I; auto; try easy; destruct I as [<-|[]]; easy.
  - intros l k c t IHt e IHe L. apply andb_true_iff in L. destruct L as [L1 L2].
    destruct (IHt L1) as [P1 P2], (IHe L2) as [Q1 Q2]. split; [|now apply clean_app].
    intros t' I. apply in_app_or in I. destruct I as [I|I]; destruct k as [[|]|]; cbn in I; auto; easy.
  - auto.
  - intros _. split; [intros t []|exact Z].
  - auto.
  - intros c p IHp r IHr L. apply andb_true_iff in L. destruct L as [L1 L2].
    destruct (IHp L1) as [P1 P2], (IHr L2) as [Q1 Q2]. split; [|now apply clean_app].
    intros t' I. apply in_app_or in I. destruct I; auto.
Qed.
Lemma clean_last automatic t sy i l : clean automatic t -> automatic sy = true -> last_w t sy i = Some l -> False.
Proof.
  intros C A. rewrite last_w_none; [discriminate|]. intros l' b I _. specialize (C _ I). cbn in C. congruence.
Qed.
