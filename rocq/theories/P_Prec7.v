(** Proofs about the text of blocks: the writes and reads that are analysed are those of
    the text. *)
From Verif Require Import Base M_Graph M_Range M_Netlist M_Annot M_Interval M_Heap M_Drivers M_Pending M_DFA M_Builder M_Slice M_Port M_Flow M_Proc
  S_Annot S_Interval S_Drivers S_Pending S_DFA S_Slice S_Port S_Flow S_Proc S_Prec S_Prec2
  P_Interval P_Heap P_Drivers P_Annot P_Pending P_DFA P_DFA2 P_Slice P_Slice2 P_Port P_Flow P_Flow2 P_Flow3 P_Flow4 P_Prec P_Prec2 P_Prec3 P_Prec4 P_Proc2 P_Prec6.

Section Text.
Context {V : Type}.
Variable vz : V.
Variable rb : bool.
Variable h : hints.
Variable ports : list fport.
Hypothesis Sh : sorted_hints h.
Notation bstmt_ok := (bstmt_ok vz rb h ports).
Notation bitems_ok := (bitems_ok vz rb h ports).

Definition writes_in (T : trace) (P : nat -> nat -> Prop) : Prop := forall l t w i, In (l, t, w) T -> bit w i -> exists j, i = Z.of_nat j /\ P t j.
Definition reads_in (R : list ref) (P : nat -> nat -> Prop) : Prop := forall t b i, In (t, b) R -> bit b i -> exists j, i = Z.of_nat j /\ P t j.
Lemma writes_in_app A B (P Q : nat -> nat -> Prop) C D : writes_in (A ++ C) P -> writes_in (B ++ D) Q -> writes_in ((A ++ B) ++ C ++ D) (fun s i => P s i \/ Q s i).
Proof.
  intros H1 H2 l t w i I Bt. assert (E : In (l, t, w) (A ++ C) \/ In (l, t, w) (B ++ D)) by (rewrite !in_app_iff in *; tauto).
  destruct E as [E|E]; [destruct (H1 _ _ _ _ E Bt) as (j & Ej & Pj)|destruct (H2 _ _ _ _ E Bt) as (j & Ej & Pj)]; exists j; auto.
Qed.
Lemma reads_in_app A B (P Q : nat -> nat -> Prop) : reads_in A P -> reads_in B Q -> reads_in (A ++ B) (fun s i => P s i \/ Q s i).
Proof. intros H1 H2 t b i I Bt. apply in_app_or in I. destruct I as [I|I]; [destruct (H1 _ _ _ I Bt) as (j & Ej & Pj)|destruct (H2 _ _ _ I Bt) as (j & Ej & Pj)]; exists j; auto. Qed.
Lemma refs_in (e : expr V) : paths_ok e -> reads_in (refs e) (fun s i => In (s, i) (S_Slice.reads e)).
Proof.
  intros Po t b i I Bt. assert (R : rbit (refs e) t i) by (exists b; auto). destruct (refs_nat _ t i Po R) as (j & ->). exists j. split; [reflexivity|]. now apply refs_reads.
Qed.

Lemma asg_text bl l r q : basg_ok vz rb h ports l r -> pasg_stmt vz rb h bl l r = Some q ->
  writes_in (all_refs q) (fun s i => In (s, i) (lbits l)) /\ reads_in (read_refs q) (fun s i => In (s, i) (S_Slice.reads r)).
Proof.
  intros ((Lv & Tl & Nd & _ & Un) & (Po & _ & Rs) & _ & Ew) E. unfold pasg_stmt in E. destruct rb eqn:Rb; cbn [negb] in E.
  - destruct (Rs eq_refl) as (O1 & O2 & Tr & O3).
    destruct (build_list_spec V vz h l Sh Tl) as (Til & _). destruct (build_list_spec V vz h r Sh Tr) as (Tir & _).
    rewrite (tiled_width V _ _ Til), (tiled_width V _ _ Tir), Ew, Nat.eqb_refl in E. cbn [negb] in E.
    destruct (aligned_hyp vz h Sh l r Lv Tl Nd Po Tr Ew (conj O1 (conj O2 O3))) as (gs & W & E' & F2 & Hw & Hg & _). rewrite E' in E. injection E as <-. split.
    + intros k t w i I Bt. assert (J : exists g, In g gs /\ In (t, w) (slhs g)).
      { unfold all_refs in I. cbn [all_writes nb_writes] in I. apply in_app_or in I. destruct I as [I|I].
        - apply in_flat_map in I. destruct I as (g & Ig & I). destruct bl; [|destruct I]. cbn in I. unfold writes in I. apply in_map_iff in I. destruct I as ([t' w'] & Q & I). injection Q as _ <- <-. eauto.
        - destruct bl; [destruct I|]. apply in_flat_map in I. destruct I as (g & Ig & I). unfold writes in I. apply in_map_iff in I. destruct I as ([t' w'] & Q & I). injection Q as _ <- <-. eauto. }
      destruct J as (g & Ig & J). destruct (F2_in_r _ _ _ g F2 Ig) as (m & Im & _ & Sp).
      destruct (seg_lhs vz h Sh l r Tl Tr Ew m g t i Im Sp) as (k' & j & _ & Ej & K); [exists w; auto|]. exists j. split; [exact Ej|]. eapply nth_error_In; eauto.
    + intros t b i I Bt. cbn [read_refs] in I. apply in_flat_map in I. destruct I as (g & Ig & I). destruct (F2_in_r _ _ _ g F2 Ig) as (m & Im & _ & Sp).
      apply (seg_spec_reads vz h l r Po m g t i Sp). exists b. split; [|exact Bt]. apply in_flat_map in I. destruct I as (x & Ix & I). apply in_flat_map. exists x. split; [exact Ix|]. now destruct x.
  - injection E as <-. destruct (whole_hyp vz h l r Lv Tl Nd Po (Un eq_refl)) as (_ & _ & _ & Lb). split; [|exact (refs_in r Po)].
    intros k t w i I Bt. apply Lb. exists w. split; [|exact Bt]. unfold all_refs in I. cbn [all_writes nb_writes] in I. rewrite P_Prec6.static_id in I. apply in_app_or in I.
    destruct I as [I|I]; (destruct bl; [|]); try destruct I; unfold writes in I; apply in_map_iff in I; destruct I as ([t' w'] & Q & I); injection Q as _ <- <-; exact I.
Qed.
Lemma block_text : forall p q, bstmt_ok p -> proc_stmt vz rb h p = Some q -> writes_in (all_refs q) (may p) /\ reads_in (read_refs q) (breads p).
Proof.
  induction p as [|bl l r|p IHp q IHq|c t IHt|c t IHt e IHe|c its IHi|p IHp|xs p IHp r IHr] using pst_mind with
    (P0 := fun r => forall q, bitems_ok r -> proc_items vz rb h r = Some q -> writes_in (call_refs q) (cmay r) /\ reads_in (cread_refs q) (cbreads r)); intros q' Ok E.
  1-5: cbn [proc_stmt] in E.
  6: rewrite proc_case in E.
  7: rewrite proc_default in E.
  8: rewrite proc_item in E.
  - injection E as <-. split; [intros l t w i []|intros t b i []].
  - exact (asg_text bl l r q' Ok E).
  - destruct Ok as [O1 O2]. destruct (proc_stmt vz rb h p) as [q1|]; [|discriminate]. destruct (proc_stmt vz rb h q) as [q2|]; [|discriminate]. injection E as <-.
    destruct (IHp q1 O1 eq_refl) as [A1 A2]. destruct (IHq q2 O2 eq_refl) as [B1 B2]. split; [exact (writes_in_app _ _ _ _ _ _ A1 B1)|exact (reads_in_app _ _ _ _ A2 B2)].
  - destruct Ok as [O1 O2]. destruct (proc_stmt vz rb h t) as [q1|]; [|discriminate]. injection E as <-.
    destruct (IHt q1 O2 eq_refl) as [A1 A2]. split; [exact A1|exact (reads_in_app _ _ _ _ (refs_in c (proj1 O1)) A2)].
  - destruct Ok as (O1 & O2 & O3). destruct (proc_stmt vz rb h t) as [q1|]; [|discriminate]. destruct (proc_stmt vz rb h e) as [q2|]; [|discriminate]. injection E as <-.
    destruct (IHt q1 O2 eq_refl) as [A1 A2]. destruct (IHe q2 O3 eq_refl) as [B1 B2].
    split; [exact (writes_in_app _ _ _ _ _ _ A1 B1)|exact (reads_in_app _ _ _ _ (refs_in c (proj1 O1)) (reads_in_app _ _ _ _ A2 B2))].
  - destruct Ok as [O1 O2]. destruct (proc_items vz rb h its) as [q1|]; [|discriminate]. injection E as <-.
    destruct (IHi q1 O2 eq_refl) as [A1 A2]. split; [exact A1|exact (reads_in_app _ _ _ _ (refs_in c (proj1 O1)) A2)].
  - destruct (proc_stmt vz rb h p) as [q1|]; [|discriminate]. injection E as <-. exact (IHp q1 Ok eq_refl).
  - destruct Ok as (O1 & O2 & O3). destruct (proc_stmt vz rb h p) as [q1|]; [|discriminate]. destruct (proc_items vz rb h r) as [q2|]; [|discriminate]. injection E as <-.
    destruct (IHp q1 O2 eq_refl) as [A1 A2]. destruct (IHr q2 O3 eq_refl) as [B1 B2].
    split; [exact (writes_in_app _ _ _ _ _ _ A1 B1)|]. refine (reads_in_app _ _ _ _ _ (reads_in_app _ _ _ _ A2 B2)).
    intros t b i I Bt. apply in_flat_map in I. destruct I as (y & Iy & I). destruct (refs_in y (proj1 (O1 y Iy)) t b i I Bt) as (j & Ej & Q). exists j. split; [exact Ej|]. eauto.
Qed.
(** What a block reads is no port. *)
Lemma reads_names : forall p, bstmt_ok p -> forall s i q, breads p s i -> In q ports -> s <> fp_id q.
Proof.
  induction p as [|bl l r|p IHp q IHq|c t IHt|c t IHt e IHe|c its IHi|p IHp|xs p IHp r IHr] using pst_mind with
    (P0 := fun r => bitems_ok r -> forall s i q, cbreads r s i -> In q ports -> s <> fp_id q); intros Ok s i q0 R Iq; cbn in R.
  - destruct R.
  - destruct Ok as (_ & (_ & N & _) & _). eapply N; eauto.
  - destruct Ok as [O1 O2]. destruct R as [R|R]; [eapply IHp|eapply IHq]; eauto.
  - destruct Ok as [(_ & _ & N) O2]. destruct R as [R|R]; [eapply N|eapply IHt]; eauto.
  - destruct Ok as ((_ & _ & N) & O2 & O3). destruct R as [R|[R|R]]; [eapply N|eapply IHt|eapply IHe]; eauto.
  - destruct Ok as [(_ & _ & N) O2]. destruct R as [R|R]; [eapply N|eapply IHi]; eauto.
  - eapply IHp; eauto.
  - destruct Ok as (O1 & O2 & O3). destruct R as [(y & Iy & R)|[R|R]]; [destruct (O1 y Iy) as (_ & _ & N); eapply N|eapply IHp|eapply IHr]; eauto.
Qed.
Lemma may_list : forall p : pst V, exists X, forall s i, In (s, i) X <-> may p s i.
Proof.
  induction p as [|bl l r|p [X HX] q [Y HY]|c t [X HX]|c t [X HX] e [Y HY]|c its [X HX]|p [X HX]|xs p [X HX] r [Y HY]] using pst_mind with
    (P0 := fun r => exists X, forall s i, In (s, i) X <-> cmay r s i); cbn.
  - exists []. cbn. tauto.
  - exists (lbits l). reflexivity.
  - exists (X ++ Y). intros s i. rewrite in_app_iff, HX, HY. reflexivity.
  - exists X. exact HX.
  - exists (X ++ Y). intros s i. rewrite in_app_iff, HX, HY. reflexivity.
  - exists X. exact HX.
  - exists X. exact HX.
  - exists (X ++ Y). intros s i. rewrite in_app_iff, HX, HY. reflexivity.
Qed.
End Text.
