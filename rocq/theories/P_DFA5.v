(** Proofs about the data-flow analysis: the end of a block, reads before writes, joins. *)
From Coq Require Import Sorted.
From Verif Require Import Base M_Graph M_Range M_Netlist M_Annot M_Interval M_Heap M_Drivers M_Pending
  M_DFA S_Interval S_Drivers S_DFA P_Interval P_Heap P_Drivers P_DriversX P_DFA P_DFA2 P_DFA3 P_DFA4.
Local Open Scope Z_scope.

(** * Finalize *)
Lemma process_ok W f : aligned_writes W -> okF f -> forall ls N a, okSA W f a ->
  Forall2 (nbm f) ls N -> incl N W ->
  exists a', process_lv a ls = DOk a' /\ okSA W f a' /\
    forall sy i l, drv f a' sy i l <->
      match last_w N sy i with Some l' => l = l' | None => drv f a sy i l end.
Proof.
  intros A O ls N. revert ls. induction N as [|[[l0 sy0] b0] N IH]; intros ls a S F Hw; inversion F as [|[[sy b] n] ? ls' ? M F']; subst.
  - exists a. split; [reflexivity|]. split; [exact S|]. intros. reflexivity.
  - destruct M as (M1 & M2 & M3). cbn in M1, M2, M3. subst sy b. cbn [process_lv].
    destruct (track_ok W a sy0 b0 [n] false A (sa_ok _ _ _ S)) as (a1 & E1 & O1 & Q1 & Q2 & Q3 & H1).
    { exists l0, b0. split; [apply Hw; now left|auto]. }
    { discriminate. }
    rewrite E1. cbn [dbind].
    assert (S1 : okSA W f a1).
    { split; [exact O1| |rewrite Q1; apply S|rewrite Q2; apply S].
      intros sy i k Hk. apply H1 in Hk. destruct Hk as [(-> & _ & [[<-|[]]|[? _]])|[_ Hk]]; [eauto|discriminate|].
      apply (sa_known _ _ _ S sy i k Hk). }
    destruct (IH ls' a1 S1 F') as (a2 & E2 & S2 & H2). { intros w I. apply Hw. now right. }
    exists a2. split; [exact E2|]. split; [exact S2|]. intros sy i l. rewrite H2. cbn [last_w].
    destruct (last_w N sy i); [reflexivity|]. unfold drv. split.
    + intros (k & Hk & Ik). apply H1 in Hk. destruct Hk as [(-> & Bi & [[<-|[]]|[? _]])|[Nb Hk]]; [|discriminate|].
      * rewrite Nat.eqb_refl, (proj2 (bitb_spec b0 i) Bi). cbn.
        pose proof (proj2 O n _ _ Ik M3) as Q. now injection Q.
      * destruct (Nat.eqb_spec sy sy0) as [->|]; cbn; [|eauto].
        destruct (bitb b0 i) eqn:Eb; [apply bitb_spec in Eb; tauto|eauto].
    + destruct (Nat.eqb_spec sy sy0) as [->|Ns]; cbn.
      * destruct (bitb b0 i) eqn:Eb.
        -- intros ->. apply bitb_spec in Eb. exists n. split; [|exact M3]. apply H1. left. cbn; auto.
        -- intros (k & Hk & Ik). exists k. split; [|exact Ik]. apply H1. right. split; [|exact Hk].
           intros [_ Bi]. apply bitb_spec in Bi. congruence.
      * intros (k & Hk & Ik). exists k. split; [|exact Ik]. apply H1. right. tauto.
Qed.

Lemma drv_label s sy i l : drv (fxs s) (cur s) sy i l <-> driver_label s sy i l.
Proof.
  unfold drv, driver_label, hasA, has, driven_by, is_kind, inside. split.
  - intros (n & (x & ls & H) & I). exists n. split; [|exact I]. exists x, ls. tauto.
  - intros (n & (x & ls & H) & I). exists n. split; [|exact I]. exists x, ls. tauto.
Qed.

(** * A read of the own write *)
Definition sim (x y : rd) : Prop :=
  let '(T, k, (sy, b)) := x in let '(T', k', r') := y in k = k' /\ (sy, b) = r' /\ (T = [] <-> T' = []) /\
  forall i, bit b i -> forall o, (exists t, In t T /\ last_w t sy i = o) <-> (exists t, In t T' /\ last_w t sy i = o).

Lemma sim_refl x : sim x x.
Proof. destruct x as [[T k] [sy b]]. cbn. repeat split; auto. Qed.
Lemma sims_refl l : Forall2 sim l l.
Proof. induction l; constructor; auto using sim_refl. Qed.
Lemma cat_nil P T : cat P T = [] <-> P = [] \/ T = [].
Proof.
  split.
  - intros H. destruct P as [|a P]; [auto|]. destruct T as [|b T]; [auto|]. discriminate.
  - intros [->| ->]; [reflexivity|]. unfold cat. induction P; auto.
Qed.
Lemma sim_after P x y : sim x y -> sim (after P x) (after P y).
Proof.
  destruct x as [[T k] [sy b]], y as [[T' k'] r']. cbn. intros (-> & <- & N & H). split; [reflexivity|].
  split; [reflexivity|]. split; [rewrite !cat_nil; tauto|]. intros i Bi o.
  assert (G : forall T1 T2, (forall o, (exists t, In t T1 /\ last_w t sy i = o) -> (exists t, In t T2 /\ last_w t sy i = o)) ->
    (exists t, In t (cat P T1) /\ last_w t sy i = o) -> exists t, In t (cat P T2) /\ last_w t sy i = o).
  { intros T1 T2 Q (t & I & L). apply in_cat in I. destruct I as (a & c & Ia & Ic & ->).
    destruct (Q (last_w c sy i)) as (c' & Ic' & Lc'); [eauto|]. exists (a ++ c'). split.
    - apply in_cat. exists a, c'. auto.
    - rewrite last_w_app in *. now rewrite Lc'. }
  split; apply G; intros o'; apply (H i Bi o').
Qed.
Lemma sims_after P : forall l l', Forall2 sim l l' -> Forall2 sim (map (after P) l) (map (after P) l').
Proof. intros l l' H. induction H; constructor; auto using sim_after. Qed.

Lemma last_w_none : forall t sy i, (forall l b, In (l, sy, b) t -> ~ bit b i) -> last_w t sy i = None.
Proof.
  induction t as [|[[l s] b] t IH]; intros sy i H; [reflexivity|]. cbn. rewrite IH by (intros; eapply H; right; eauto).
  destruct (Nat.eqb_spec sy s) as [->|]; [|reflexivity]. destruct (bitb b i) eqn:E; [|reflexivity].
  apply bitb_spec in E. destruct (H l b); [now left|exact E].
Qed.
Lemma no_common_last ws rs sy b i : no_common ws rs -> In (sy, b) rs -> bit b i -> last_w ws sy i = None.
Proof. intros H I Bi. apply last_w_none. intros l b' J B'. exact (H l sy b' b i J I B' Bi). Qed.
Lemma no_common_l w1 w2 rs : no_common (w1 ++ w2) rs -> no_common w1 rs.
Proof. intros H l sy b b' i I. apply (H l sy b b' i). apply in_or_app. auto. Qed.

Lemma sim_reads ws k rs : no_common ws rs -> Forall2 sim (reads_at [ws] k rs) (reads_at [[]] k rs).
Proof.
  intros H. assert (G : forall rs', incl rs' rs -> Forall2 sim (reads_at [ws] k rs') (reads_at [[]] k rs')).
  { induction rs' as [|[sy b] rs' IH]; intros Hi; cbn; constructor.
    - cbn. repeat split; auto; try discriminate.
      + intros (t & [<-|[]] & L). exists []. split; [now left|]. cbn.
        rewrite (no_common_last ws rs sy b i H) in L; auto. apply Hi. now left.
      + intros (t & [<-|[]] & L). exists ws. split; [now left|]. cbn in L.
        rewrite (no_common_last ws rs sy b i H); auto. apply Hi. now left.
    - apply IH. intros x I. apply Hi. now right. }
  apply G. apply incl_refl.
Qed.

Section Analysis.
Variable automatic : nat -> bool.
Lemma sim_segs l bl : forall gs ws0,
  no_common (ws0 ++ flat_map (seg_writes l bl) gs) (flat_map (fun g => flat_map (src_refs automatic) (srhs g)) gs) ->
  Forall2 sim (map (after [ws0]) (seg_reads automatic l bl gs)) (assign_reads automatic l gs).
Proof.
  induction gs as [|g gs IH]; intros ws0 H; [constructor|]. cbn [seg_reads flat_map] in *. unfold assign_reads.
  cbn [flat_map]. rewrite reads_at_app, map_app. apply Forall2_app.
  - assert (E : map (after [ws0]) (reads_at [seg_writes l bl g] (KAssign l) (flat_map (src_refs automatic) (srhs g)))
               = reads_at [ws0 ++ seg_writes l bl g] (KAssign l) (flat_map (src_refs automatic) (srhs g))).
    { unfold reads_at. rewrite map_map. apply map_ext. reflexivity. }
    rewrite E. apply sim_reads. intros l' sy b b' i I J. apply (H l' sy b b' i).
    + rewrite app_assoc. apply in_or_app. auto.
    + apply in_or_app. auto.
  - assert (E : map (after [ws0]) (map (after [seg_writes l bl g]) (seg_reads automatic l bl gs))
               = map (after [ws0 ++ seg_writes l bl g]) (seg_reads automatic l bl gs)).
    { rewrite map_map. apply map_ext. intros [[T k] r]. unfold after, cat. cbn. rewrite !app_nil_r, map_map.
      do 2 f_equal. apply map_ext. intros t. now rewrite app_assoc. }
    rewrite E. apply IH. intros l' sy b b' i I J. apply (H l' sy b b' i).
    + rewrite app_assoc. exact I.
    + apply in_or_app. auto.
Qed.

Lemma sim_all :
  (forall p, no_self automatic p -> Forall2 sim (reads automatic p) (lreads automatic p)) /\
  (forall c, cno_self automatic c -> forall l, Forall2 sim (creads automatic l c) (clreads automatic l c)).
Proof.
  apply stmt_clist; cbn [no_self cno_self reads lreads creads clreads].
  - constructor.
  - intros l bl gs H. rewrite <- (after_nil (seg_reads automatic l bl gs)). now apply sim_segs.
  - intros l bl lhs rhs H. now apply sim_reads.
  - intros p IHp q IHq [Hp Hq]. apply Forall2_app; [auto|]. apply sims_after; auto.
  - intros l k c t IH H. apply Forall2_app; [destruct k; apply sims_refl|]. destruct k as [[|]|]; auto.
  - intros l k c t IHt e IHe [Ht He]. apply Forall2_app; [destruct k; apply sims_refl|].
    apply Forall2_app; destruct k as [[|]|]; auto.
  - intros l c items IH H. apply Forall2_app; [apply sims_refl|auto].
  - constructor.
  - auto.
  - intros c p IHp r IHr [Hp Hr] l. apply Forall2_app; [apply sims_refl|]. apply Forall2_app; auto.
Qed.
End Analysis.

Lemma sims_in l l' : Forall2 sim l l' -> forall T k sy b, In (T, k, (sy, b)) l ->
  exists T', In (T', k, (sy, b)) l' /\ sim (T, k, (sy, b)) (T', k, (sy, b)).
Proof.
  intros H. induction H as [|x y l l' S H IH]; intros T k sy b I; [easy|]. destruct I as [->|I].
  - destruct y as [[T' k'] r']. cbn in S. destruct S as (<- & <- & S). exists T'. split; [now left|]. cbn. auto.
  - destruct (IH _ _ _ _ I) as (T' & J & S'). exists T'. split; [now right|exact S'].
Qed.
Lemma sim_sym x y : sim x y -> sim y x.
Proof.
  destruct x as [[T k] [sy b]], y as [[T' k'] [sy' b']]. cbn. intros (-> & E & N & H). injection E as <- <-.
  repeat split; try tauto; intros Q; apply (H i); auto.
Qed.
Lemma sims_sym l l' : Forall2 sim l l' -> Forall2 sim l' l.
Proof. intros H. induction H; constructor; auto using sim_sym. Qed.

(** * Whole blocks *)
Definition seen_on (T : list trace) (sy : nat) (i : Z) (o : option nat) : Prop :=
  exists t, In t T /\ last_w t sy i = o.

Section Block.
Variable nm : nat -> str.
Variable automatic : nat -> bool.
Variable external : option nat.

Lemma start_ready W n0 : olt n0 external -> ready external W (start n0).
Proof.
  intros E. split; [split; cbn; tauto|]. split; [apply okSA_nil|exact E].
Qed.
Lemma start_base n0 sy i l : ~ drv (fxs (start n0)) (cur (start n0)) sy i l.
Proof. intros (n & _ & []). Qed.
Lemma start_some n0 T sy i l :
  some_path (drv (fxs (start n0)) (cur (start n0))) T sy i l <-> seen_on T sy i (Some l).
Proof.
  split.
  - intros (t & I & [Q|[_ Q]]); [exists t; auto|]. destruct (start_base _ _ _ _ Q).
  - intros (t & I & Q). exists t. auto.
Qed.
Lemma start_no n0 T sy i :
  no_path (drv (fxs (start n0)) (cur (start n0))) T sy i <-> forall t, In t T -> last_w t sy i = None.
Proof.
  split.
  - intros H t I. apply (H t I).
  - intros H t I. split; [auto|]. intros l. apply start_base.
Qed.

Record block_spec (p : stmt) (s : st) : Prop := {
  bs_drivers : forall sy i l, driver_label s sy i l <-> drives_at_end automatic p sy i l;
  bs_driver_nodes : forall sy i n, driven_by (cur s) sy i n -> exists l, is_kind (fxs s) n (KAssign l);
  bs_edge_complete : forall T k sy b i l, In (T, k, (sy, b)) (reads automatic p) ->
    sfree (all_writes p ++ nb_writes automatic p) sy b -> bit b i -> seen_on T sy i (Some l) ->
    edge_for (fxs s) l k (nm sy) b;
  bs_edge_sound : forall l k name b, edge_for (fxs s) l k name b ->
    exists T sy i, In (T, k, (sy, b)) (reads automatic p) /\ name = nm sy /\ bit b i /\ seen_on T sy i (Some l);
  bs_pend_complete : forall T k sy b i, In (T, k, (sy, b)) (reads automatic p) -> T <> [] -> bit b i ->
    (forall t, In t T -> last_w t sy i = None) -> pending_for (fxs s) k sy i;
  bs_pend_sound : forall k sy i, pending_for (fxs s) k sy i ->
    exists T b, In (T, k, (sy, b)) (reads automatic p) /\ bit b i /\
      ((forall t, In t T -> last_w t sy i = None) \/ i = upper b);
  bs_labelled : lab (fxs s) (fdeps (fxs s)) (fpend (fxs s)) }.

Lemma block_ok n0 p : aligned_writes (all_writes p ++ nb_writes automatic p) -> live p = true -> olt n0 external ->
  exists s, run_block nm automatic external n0 p = DOk s /\ block_spec p s.
Proof.
  set (W := all_writes p ++ nb_writes automatic p). intros A L E.
  destruct (exec_ok nm automatic external W A p (start n0) (start_ready W n0 E)) as (s & Es & O & M & Tr).
  { intros w I. apply in_or_app. auto. }
  destruct Tr as (ds & ps & ls & G & H1 & H2 & H3 & H4 & H5 & H6).
  destruct G as (X & Gd & Gp & Gl & _). cbn in Gd, Gp, Gl.
  cbn [start cur areach topState] in H1, H2, H3, H4, H5, H6, M.
  specialize (H1 eq_refl). specialize (H2 eq_refl). specialize (H3 L eq_refl). specialize (H4 L eq_refl).
  specialize (H5 L eq_refl). specialize (H6 L eq_refl).
  destruct (process_ok W (fxs s) A O ls (nb_writes automatic p) (cur s)) as (a & Ea & Sa & Ha); auto.
  { apply (arm_ok _ _ _ _ _ _ M). }
  { intros w I. apply in_or_app. auto. }
  unfold run_block. rewrite Es. cbn [dbind]. unfold finalize. rewrite Gl, Ea. cbn [dbind].
  eexists. split; [reflexivity|]. split; cbn [cur fxs fnodes fdeps fpend].
  - intros sy i l. rewrite <- drv_label. cbn [cur fxs].
    change (drv _ a sy i l) with (drv (fxs s) a sy i l). rewrite Ha. unfold drives_at_end.
    destruct (last_w (nb_writes automatic p) sy i); [reflexivity|].
    rewrite (arm_drv _ _ _ _ _ _ M eq_refl); [apply (start_some n0)|]. now apply (proj1 (live_paths automatic)).
  - intros sy i n H. apply (sa_known _ _ _ Sa sy i n). destruct H as (x & l & H). exists x, l. unfold inside. tauto.
  - intros T k sy b i l I Sf Bi P. rewrite Gd. destruct (H1 T k sy b i l I Sf Bi) as (n & m & J); [now apply (start_some n0)|].
    exists n, m. exact J.
  - intros l k name b (n & m & I & J1 & J2). cbn [fdeps fnodes] in *. rewrite Gd in I.
    destruct (H3 l k name b) as (T & sy & i & K1 & K2 & K3 & K4); [exists n, m; auto|].
    exists T, sy, i. repeat (split; [assumption|]). now apply (start_some n0).
  - intros T k sy b i I NT Bi P. destruct (H2 T k sy b i I NT Bi) as (x & m & J); [now apply (start_no n0)|].
    exists x, m. cbn [fpend fnodes is_kind]. rewrite Gp. exact J.
  - intros k sy i (x & m & I & J). cbn [fpend fnodes] in *. rewrite Gp in I.
    destruct (H4 k sy i) as (T & b & K1 & K2 & K3); [exists x, m; auto|]. exists T, b.
    split; [exact K1|]. split; [exact K2|]. destruct K3 as [K3|K3]; [left|auto]. now apply (proj1 (start_no n0 T sy i)).
  - rewrite Gd, Gp. exact H6.
Qed.

(** The same with the right-hand sides read first. *)
Lemma block_lang n0 p : aligned_writes (all_writes p ++ nb_writes automatic p) -> live p = true -> olt n0 external ->
  no_self automatic p ->
  exists s, run_block nm automatic external n0 p = DOk s /\ block_spec p s /\
  (forall T k sy b i l, In (T, k, (sy, b)) (lreads automatic p) ->
    sfree (all_writes p ++ nb_writes automatic p) sy b -> bit b i -> seen_on T sy i (Some l) ->
    edge_for (fxs s) l k (nm sy) b) /\
  (forall l k name b, edge_for (fxs s) l k name b ->
    exists T sy i, In (T, k, (sy, b)) (lreads automatic p) /\ name = nm sy /\ bit b i /\ seen_on T sy i (Some l)) /\
  (forall T k sy b i, In (T, k, (sy, b)) (lreads automatic p) -> T <> [] -> bit b i ->
    (forall t, In t T -> last_w t sy i = None) -> pending_for (fxs s) k sy i) /\
  (forall k sy i, pending_for (fxs s) k sy i ->
    exists T b, In (T, k, (sy, b)) (lreads automatic p) /\ bit b i /\
      ((forall t, In t T -> last_w t sy i = None) \/ i = upper b)).
Proof.
  intros A L E Ns. destruct (block_ok n0 p A L E) as (s & Es & B). exists s. split; [exact Es|]. split; [exact B|].
  pose proof (proj1 (sim_all automatic) p Ns) as Sm. pose proof (sims_sym _ _ Sm) as Sm'.
  split; [|split; [|split]].
  - intros T k sy b i l I Sf Bi P. destruct (sims_in _ _ Sm' _ _ _ _ I) as (T' & I' & S).
    apply (bs_edge_complete _ _ B T' k sy b i l); auto. cbn in S. destruct S as (_ & _ & _ & S).
    now apply (S i Bi (Some l)).
  - intros l k name b H. destruct (bs_edge_sound _ _ B l k name b H) as (T & sy & i & I & Q & Bi & P).
    destruct (sims_in _ _ Sm _ _ _ _ I) as (T' & I' & S). cbn in S. destruct S as (_ & _ & _ & S).
    exists T', sy, i. repeat (split; [assumption|]). now apply (S i Bi (Some l)).
  - intros T k sy b i I NT Bi P. destruct (sims_in _ _ Sm' _ _ _ _ I) as (T' & I' & S). cbn in S.
    destruct S as (_ & _ & N & S). apply (bs_pend_complete _ _ B T' k sy b i); auto; [tauto|].
    intros t It. destruct (last_w t sy i) as [l|] eqn:El; [|reflexivity].
    destruct (proj2 (S i Bi (Some l))) as (t' & It' & Q); [eauto|]. rewrite (P t' It') in Q. discriminate.
  - intros k sy i H. destruct (bs_pend_sound _ _ B k sy i H) as (T & b & I & Bi & P).
    destruct (sims_in _ _ Sm _ _ _ _ I) as (T' & I' & S). cbn in S. destruct S as (_ & _ & _ & S).
    exists T', b. split; [exact I'|]. split; [exact Bi|]. destruct P as [P|P]; [left|auto].
    intros t It. destruct (last_w t sy i) as [l|] eqn:El; [|reflexivity].
    destruct (proj2 (S i Bi (Some l))) as (t' & It' & Q); [eauto|]. rewrite (P t' It') in Q. discriminate.
Qed.
End Block.
