(** What a block leaves behind: its edges are between its own nodes, its pending reads are
    reads of its text, and the drivers that it records are its own nodes. *)
From Verif Require Import Base M_Graph M_Range M_Netlist M_Annot M_Interval M_Heap M_Drivers M_Pending M_DFA
  S_Interval S_Drivers S_Annot S_Pending S_DFA S_Proc
  P_Interval P_Heap P_Drivers P_DriversX P_Annot P_Pending P_DFA P_DFA2 P_DFA4 P_Flow2.

(** A range read, given with its symbol. *)
Definition wref (W : trace) (x : ref) : Prop := inW W (fst x) (lower (snd x)) (upper (snd x)).

Section Keep.
Variable nm : nat -> str.
Variable n0 : nat.
Variable R : list ref.
Variable W : trace.
Hypothesis Al : aligned_writes W.
Notation auto_ := (fun _ : nat => false).

Definition own (f : nat) (n : nat) : Prop := n0 <= n < f.
Definition oown (f : nat) (o : option nat) : Prop := match o with Some n => own f n | None => True end.
(** Edges with a name are annotated with bits that the text reads. *)
Definition dtext (d : dep) : Prop := match d with DPlain _ _ => True | DDep _ _ y r k => exists t, y = Some (nm t) /\ k = EKNone /\ forall i, bit r i -> rbit R t i end.
Record keptF (f : fx) : Prop := {
  k_lo : n0 <= fnext f;
  k_dep : forall d, In d (fdeps f) -> (own (fnext f) (dsrc d) /\ own (fnext f) (dtgt d)) /\ dtext d;
  k_pend : forall p, In p (fpend f) -> pref p = nm (psym p) /\ pkind p = EKNone /\ oown (fnext f) (pnode p) /\ forall i, bit (pbounds p) i -> rbit R (psym p) i;
  k_lv : forall t b m, In (t, b, m) (flv f) -> own (fnext f) m /\ inW W t (lower b) (upper b) }.
Record keptA (f : nat) (a : astate) : Prop := {
  k_ok : okA W a;
  k_has : forall sy i n, hasA a sy i n -> own f n;
  k_node : oown f (anode a);
  k_cond : oown f (acond a) }.
Definition kept (s : st) : Prop := keptF (fxs s) /\ keptA (fnext (fxs s)) (cur s).
Definition leF (s s' : st) : Prop := fnext (fxs s) <= fnext (fxs s').
Notation keeps s s' := (kept s' /\ leF s s').

Lemma own_le f f' n : f <= f' -> own f n -> own f' n.
Proof. unfold own. lia. Qed.
Lemma oown_le f f' o : f <= f' -> oown f o -> oown f' o.
Proof. intros L. destruct o; cbn; [now apply own_le|auto]. Qed.
Lemma keptA_le f f' a : f <= f' -> keptA f a -> keptA f' a.
Proof. intros L [A B C D]. split; auto; [|eapply oown_le; eauto|eapply oown_le; eauto]. intros sy i n H. eapply own_le; eauto. Qed.
Lemma keeps_refl s : kept s -> keeps s s.
Proof. intros K. split; [exact K|]. unfold leF. lia. Qed.
Lemma keeps_trans s1 s2 s3 : keeps s1 s2 -> keeps s2 s3 -> keeps s1 s3.
Proof. intros [_ L] [K L']. split; [exact K|]. unfold leF in *. lia. Qed.

Lemma each_keep {A} (f : st -> A -> dres st) l : (forall s x s', In x l -> kept s -> f s x = DOk s' -> keeps s s') ->
  forall s s', kept s -> each f s l = DOk s' -> keeps s s'.
Proof.
  induction l as [|x l IH]; intros H s s' K E; cbn [each] in E; [injection E as <-; now apply keeps_refl|].
  destruct (f s x) as [s1|] eqn:E1; [|discriminate]. cbn [dbind] in E.
  destruct (H s x s1 (or_introl eq_refl) K E1) as [K1 L1]. eapply keeps_trans; [split; eassumption|]. apply IH; auto.
  intros s0 y s2 I. apply H. now right.
Qed.

(** * Small steps *)
Lemma emit_keep s ds : kept s -> (forall d, In d ds -> (own (fnext (fxs s)) (dsrc d) /\ own (fnext (fxs s)) (dtgt d)) /\ dtext d) -> keeps s (emit s ds).
Proof.
  intros [[A B C D] Ka] H. split; [|unfold leF; cbn; lia]. split; [|exact Ka]. split; auto. cbn. intros d I. apply in_app_or in I. destruct I; auto.
Qed.
Lemma queue_keep s p : kept s -> pref p = nm (psym p) -> pkind p = EKNone -> oown (fnext (fxs s)) (pnode p) -> (forall i, bit (pbounds p) i -> rbit R (psym p) i) -> keeps s (queue s p).
Proof.
  intros [[A B C D] Ka] H1 H2 H3 H4. split; [|unfold leF; cbn; lia]. split; [|exact Ka]. split; auto. cbn. intros q I. apply in_app_or in I. destruct I as [I|[<-|[]]]; auto.
Qed.
Lemma push_keep s t b m : kept s -> own (fnext (fxs s)) m -> inW W t (lower b) (upper b) -> keeps s (push_lv s (t, b, m)).
Proof.
  intros [[A B C D] Ka] H1 H2. split; [|unfold leF; cbn; lia]. split; [|exact Ka]. split; auto. cbn. intros t' b' m' I. apply in_app_or in I. destruct I as [I|[[= <- <- <-]|[]]]; auto.
Qed.
Lemma create_keep s k s1 n : kept s -> create s k = (s1, n) -> keeps s s1 /\ own (fnext (fxs s1)) n /\ cur s1 = cur s.
Proof.
  intros [[A B C D] Ka] E. unfold create in E. injection E as <- <-. split; [|split; [unfold own; cbn; lia|reflexivity]].
  assert (L : fnext (fxs s) <= S (fnext (fxs s))) by lia. split; [|unfold leF; cbn; lia]. split; [|eapply keptA_le; [|exact Ka]; cbn; lia].
  split; cbn [with_fx fxs fnext fdeps fpend flv]; [lia| | |].
  - intros d I. destruct (B d I) as [[Q1 Q2] Q3]. split; [split; eapply own_le; eauto|exact Q3].
  - intros p I. destruct (C p I) as (Q1 & Q2 & Q3 & Q4). do 2 (split; [assumption|]). split; [eapply oown_le; [|exact Q3]; cbn; lia|exact Q4].
  - intros t b m I. destruct (D t b m I) as [Q1 Q2]. split; [eapply own_le; [|exact Q1]; cbn; lia|exact Q2].
Qed.
Lemma cur_keep s a : kept s -> keptA (fnext (fxs s)) a -> keeps s (with_cur s a).
Proof. intros [Kf _] Ka. split; [|unfold leF; cbn; lia]. split; [exact Kf|exact Ka]. Qed.
Lemma update_keep s n c : kept s -> own (fnext (fxs s)) n -> keeps s (updateNode s n c).
Proof.
  intros K O. unfold updateNode. destruct (acond (cur s)) as [m|] eqn:E.
  - assert (Om : own (fnext (fxs s)) m) by (destruct K as [_ [_ _ _ Q]]; rewrite E in Q; exact Q).
    destruct (emit_keep s [DPlain m n] K) as [K1 L1]; [intros d [<-|[]]; cbn; auto|].
    eapply keeps_trans; [split; [exact K1|exact L1]|]. apply cur_keep; [exact K1|]. destruct K1 as [_ [A B C D]]. split; auto; cbn; auto. destruct c; cbn; auto.
  - apply cur_keep; [exact K|]. destruct K as [_ [A B C D]]. split; auto; cbn; auto. destruct c; cbn; auto.
Qed.
Lemma track_keep f a sy b dl m a' : keptA f a -> inW W sy (lower b) (upper b) -> (forall n, In n dl -> own f n) -> dl <> [] ->
  trackDrivers a sy b dl m = DOk a' -> keptA f a'.
Proof.
  intros [A B C D] Iw Hn Ne E. destruct (track_ok W a sy b dl m Al A Iw Ne) as (a2 & E2 & O & Q1 & Q2 & _ & H). rewrite E in E2. injection E2 as <-.
  split; [exact O| |congruence|congruence]. intros sy' i n Hh. apply H in Hh. destruct Hh as [(_ & _ & [I|[_ I]])|[_ I]]; eauto.
Qed.

(** * References *)
Lemma pend_keep s sy b o : kept s -> oown (fnext (fxs s)) o -> (forall i, bit b i -> rbit R sy i) -> keeps s (addRvalue nm s sy b o).
Proof. intros K O H. apply queue_keep; auto. Qed.
Lemma pends_keep s sy n : forall l s0, kept s0 -> leF s s0 -> own (fnext (fxs s)) n -> (forall x, In x l -> (ilo x <= ihi x)%Z /\ forall i, inside x i -> rbit R sy i) ->
  keeps s0 (fold_left (fun s2 (x : iv nat) => addRvalue nm s2 sy (Range (ilo x) (ihi x)) (Some n)) l s0).
Proof.
  induction l as [|x l IH]; intros s0 K L O H; cbn [fold_left]; [now apply keeps_refl|].
  destruct (H x (or_introl eq_refl)) as [Lx Hx]. destruct (pend_keep s0 sy (Range (ilo x) (ihi x)) (Some n) K) as [K1 L1].
  { cbn. eapply own_le; [exact L|exact O]. }
  { intros i B. apply Hx. rewrite bit_lu, lower_range, upper_range in B by exact Lx. exact B. }
  eapply keeps_trans; [split; [exact K1|exact L1]|]. apply IH; [exact K1|unfold leF in *; lia|exact O|]. intros y I. apply H. now right.
Qed.
Lemma loop_keep f d n sy b : (forall i, bit b i -> rbit R sy i) -> (forall i m, has d i m -> own f m) -> own f n -> (forall x, In x (ivs d) -> (ilo x <= ihi x)%Z) ->
  forall its stop ds, (forall x, In x its -> In x (ivs d)) -> rv_loop nm d n sy b its = DOk (stop, ds) -> forall e, In e ds -> (own f (dsrc e) /\ own f (dtgt e)) /\ dtext e.
Proof.
  intros Hb Hh On Hx. induction its as [|x its IH]; intros stop ds Hi E; cbn [rv_loop] in E; [injection E as <- <-; intros e []|].
  unfold getDriverList in E. destruct (get (lists d) (ival x)) as [l|] eqn:G; [|discriminate]. cbn [dbind] in E.
  assert (Hl : forall e, In e (addDriversToNode nm l n sy b) -> (own f (dsrc e) /\ own f (dtgt e)) /\ dtext e).
  { intros e I. apply in_map_iff in I. destruct I as (k & <- & I). cbn. split; [|exists sy; auto]. split; [|exact On]. apply (Hh (ilo x)). exists x, l.
    pose proof (Hi x (or_introl eq_refl)) as Ix. split; [exact Ix|]. split; [pose proof (Hx x Ix); unfold inside; lia|auto]. }
  destruct (contains _ b) in E; [injection E as <- <-; exact Hl|].
  destruct (rv_loop nm d n sy b its) as [[st' ds']|] eqn:E'; [|discriminate]. cbn [dbind] in E. injection E as <- <-.
  intros e I. apply in_app_or in I. destruct I as [I|I]; [destruct (contains b _) in I; [now apply Hl|destruct I]|].
  refine (IH st' ds' _ eq_refl e I). intros y J. apply Hi. now right.
Qed.
Lemma rvalue_keep s sy b s' : kept s -> (forall i, bit b i -> rbit R sy i) -> handleRvalue nm None s sy b = DOk s' -> keeps s s'.
Proof.
  intros K H E. unfold handleRvalue in E. pose proof K as [_ Ka]. destruct (nth_error (adefs (cur s)) sy) as [d|] eqn:Ed.
  2:{ injection E as <-. apply pend_keep; auto. pose proof (k_node _ _ Ka) as Q. destruct (anode (cur s)); exact Q. }
  destruct (anode (cur s)) as [n|] eqn:En.
  2:{ injection E as <-. apply pend_keep; auto. exact I. }
  assert (On : own (fnext (fxs s)) n) by (pose proof (k_node _ _ Ka) as Q; rewrite En in Q; exact Q).
  assert (Dd : defs (cur s) sy = d) by (unfold defs; now apply nth_error_nth).
  pose proof (k_ok _ _ Ka sy) as Kd. rewrite Dd in Kd.
  assert (Hx : forall x, In x (ivs d) -> (ilo x <= ihi x)%Z) by (intros x I; destruct (ok_dok _ _ _ Kd) as [[Q _] _]; now apply Q).
  destruct (rv_loop nm d n sy b (dm_find d b)) as [[stop ds]|] eqn:Er; [|discriminate]. cbn [dbind] in E.
  assert (Ks : keeps s (emit s ds)).
  { apply emit_keep; [exact K|]. refine (loop_keep (fnext (fxs s)) d n sy b H _ On Hx _ _ _ _ Er).
    - intros i m Hm. apply (k_has _ _ Ka sy i). unfold hasA. now rewrite Dd.
    - intros x I. unfold dm_find in I. now apply in_ivfind in I. }
  destruct stop; [injection E as <-; exact Ks|]. injection E as <-. eapply keeps_trans; [exact Ks|]. destruct Ks as [K1 L1].
  apply (pends_keep s); auto. pose proof (lower_upper b) as LU. intros x I.
  assert (Wf : wf [IV (lower b) (upper b) 0]).
  { split; [intros y [<-|[]]; exact LU|]. repeat constructor; cbn; intros; contradiction. }
  assert (Nx : (ilo x <= ihi x)%Z) by (apply (proj1 (difference_wf [IV (lower b) (upper b) 0] (ivs d) Wf)); exact I).
  split; [exact Nx|]. intros i Ii. apply H. rewrite bit_lu.
  assert (C : S_Interval.covers (difference [IV (lower b) (upper b) 0] (ivs d)) i) by (exists x; auto).
  apply difference_exact in C; [|intros y [<-|[]]; exact LU|apply (ok_dok _ _ _ Kd)]. destruct C as (y & [<-|[]] & Iy & _). exact Iy.
Qed.
Lemma lvalue_keep bl s sy b s' : kept s -> inW W sy (lower b) (upper b) -> handleLvalue bl s sy b = DOk s' -> keeps s s'.
Proof.
  intros K Iw E. unfold handleLvalue in E. pose proof K as [_ Ka]. destruct (anode (cur s)) as [n|] eqn:En; [|discriminate].
  assert (On : own (fnext (fxs s)) n) by (pose proof (k_node _ _ Ka) as Q; rewrite En in Q; exact Q).
  destruct bl; [|injection E as <-; now apply push_keep].
  destruct (trackDrivers (cur s) sy b [n] false) as [a|] eqn:Et; [|discriminate]. injection E as <-. apply cur_keep; [exact K|].
  eapply track_keep; eauto; [intros m [<-|[]]; exact On|discriminate].
Qed.
Lemma note_keep s x s' : kept s -> In x R -> noteReference nm auto_ None None s x = DOk s' -> keeps s s'.
Proof.
  intros K I E. unfold noteReference in E. destruct (negb (areach (cur s))); [injection E as <-; now apply keeps_refl|]. cbv beta iota in E.
  eapply rvalue_keep; eauto. intros i B. exists (snd x). split; [destruct x; exact I|exact B].
Qed.
Lemma notes_keep l s s' : kept s -> incl l R -> each (noteReference nm auto_ None None) s l = DOk s' -> keeps s s'.
Proof. intros K H. apply each_keep; auto. intros s0 x s1 I K0. apply note_keep; auto. Qed.

(** * Assignments *)
Lemma rhs_keep s r s' : kept s -> incl (source_refs r) R -> drive_rhs nm auto_ None s r = DOk s' -> keeps s s'.
Proof.
  intros K H E. destruct r as [[sy b]|l| |]; cbn [drive_rhs source_refs] in *.
  - eapply rvalue_keep; eauto. intros i B. exists b. split; [apply H; now left|exact B].
  - eapply notes_keep; eauto.
  - injection E as <-. now apply keeps_refl.
  - destruct (anode (cur s)) as [n|] eqn:En; [|injection E as <-; now apply keeps_refl].
    destruct (create s KConst) as [s1 c] eqn:Ec. destruct (create_keep s KConst s1 c K Ec) as (Ks & Oc & Cu). injection E as <-.
    eapply keeps_trans; [exact Ks|]. apply emit_keep; [apply Ks|]. intros d [<-|[]]. cbn. split; [|exact I]. split; [exact Oc|].
    pose proof (k_node _ _ (proj2 (proj1 Ks))) as Q. rewrite Cu, En in Q. exact Q.
Qed.
Lemma seg_keep l bl n c s g s' : kept s -> oown (fnext (fxs s)) n -> oown (fnext (fxs s)) c -> (forall x, In x (slhs g) -> wref W x) -> incl (flat_map source_refs (srhs g)) R ->
  do_seg nm auto_ None l bl n c s g = DOk s' -> keeps s s'.
Proof.
  intros K On Oc Hw Hr E. unfold do_seg in E. cbv zeta in E.
  destruct (cur_keep s (AS (adefs (cur s)) n c (areach (cur s))) K) as [K0 L0]; [destruct K as [_ [A B C D]]; split; auto|].
  destruct (create _ (KAssign l)) as [s1 m] eqn:Ec. destruct (create_keep _ _ _ _ K0 Ec) as ([K1 L1] & Om & _).
  destruct (update_keep s1 m false K1 Om) as [K2 L2].
  destruct (each (fun s x => handleLvalue bl s (fst x) (snd x)) (updateNode s1 m false) (slhs g)) as [s2|] eqn:E2; [|discriminate]. cbn [dbind] in E.
  assert (Ks : keeps (updateNode s1 m false) s2).
  { revert E2. apply each_keep; [|exact K2]. intros s3 x s4 I K3. apply lvalue_keep; [exact K3|]. now apply Hw. }
  assert (Ks' : keeps s2 s').
  { revert E. apply each_keep; [|apply Ks]. intros s3 x s4 I K3. apply rhs_keep; [exact K3|]. intros y J. apply Hr. apply in_flat_map. eauto. }
  destruct Ks' as [K' L']. destruct Ks as [K3 L3]. split; [exact K'|]. unfold leF in *. lia.
Qed.
Lemma aligned_keep s l bl gs s' : kept s -> (forall g x, In g gs -> In x (slhs g) -> wref W x) -> incl (flat_map (fun g => flat_map source_refs (srhs g)) gs) R ->
  do_aligned nm auto_ None s l bl gs = DOk s' -> keeps s s'.
Proof.
  intros K Hw Hr E. unfold do_aligned in E. pose proof K as [_ Ka]. pose proof (k_node _ _ Ka) as On. pose proof (k_cond _ _ Ka) as Oc.
  revert E On Oc Hw Hr. generalize (anode (cur s)) (acond (cur s)). intros n c. clear Ka. revert s K. induction gs as [|g gs IH]; intros s K E On Oc Hw Hr; cbn [each] in E.
  { injection E as <-. now apply keeps_refl. }
  destruct (do_seg nm auto_ None l bl n c s g) as [s1|] eqn:E1; [|discriminate]. cbn [dbind] in E.
  assert (K1 : keeps s s1).
  { refine (seg_keep l bl n c s g s1 K On Oc _ _ E1); [intros x I; apply (Hw g); [now left|exact I]|]. intros x I. apply Hr. cbn. apply in_or_app. now left. }
  eapply keeps_trans; [exact K1|]. destruct K1 as [K1 L1]. apply (IH s1 K1 E).
  - eapply oown_le; eauto.
  - eapply oown_le; eauto.
  - intros g' x I. apply Hw. now right.
  - intros x I. apply Hr. cbn. apply in_or_app. now right.
Qed.
Lemma legacy_keep s l bl lhs rhs s' : kept s -> (forall x, In x lhs -> wref W x) -> incl rhs R -> do_legacy nm auto_ None s l bl lhs rhs = DOk s' -> keeps s s'.
Proof.
  intros K Hw Hr E. unfold do_legacy in E. destruct (create s (KAssign l)) as [s1 m] eqn:Ec. destruct (create_keep _ _ _ _ K Ec) as ([K1 L1] & Om & _).
  destruct (update_keep s1 m false K1 Om) as [K2 L2]. destruct (each (noteReference nm auto_ None (Some bl)) (updateNode s1 m false) lhs) as [s2|] eqn:E2; [|discriminate]. cbn [dbind] in E.
  assert (Ks : keeps (updateNode s1 m false) s2).
  { revert E2. apply each_keep; [|exact K2]. intros s3 x s4 I K3 E3. unfold noteReference in E3. destruct (negb (areach (cur s3))); [injection E3 as <-; now apply keeps_refl|].
    cbv beta iota in E3. exact (lvalue_keep bl s3 _ _ s4 K3 (Hw x I) E3). }
  destruct Ks as [K3 L3]. destruct (notes_keep rhs s2 s' K3 Hr E) as [K4 L4]. split; [exact K4|]. unfold leF in *. lia.
Qed.

(** * Joins *)
Lemma nodes_keep s x y s' z : kept s -> oown (fnext (fxs s)) x -> oown (fnext (fxs s)) y -> mergeNodes s x y = (s', z) -> keeps s s' /\ oown (fnext (fxs s')) z /\ cur s' = cur s.
Proof.
  intros K X Y E. unfold mergeNodes in E.
  destruct x as [p|], y as [q|]; try (injection E as <- <-; split; [now apply keeps_refl|split; [assumption|reflexivity]]).
  destruct (Nat.eqb p q) eqn:Eq; [injection E as <- <-; split; [now apply keeps_refl|split; [exact I|reflexivity]]|].
  unfold b_merge in E. rewrite Eq in E. destruct (create s KMerge) as [s1 m] eqn:Ec. destruct (create_keep _ _ _ _ K Ec) as (Ks & Om & Cu).
  injection E as <- <-. cbn in X, Y. split; [|split; [exact Om|exact Cu]]. eapply keeps_trans; [exact Ks|]. apply emit_keep; [apply Ks|].
  destruct Ks as [_ L]. intros d [<-|[<-|[]]]; cbn; (split; [|exact I]); (split; [eapply own_le; [exact L|assumption]|exact Om]).
Qed.
Lemma mdefs_keep f ds : forall k a a', (forall j d, nth_error ds j = Some d -> okd W (k + j) d /\ forall i n, has d i n -> own f n) -> keptA f a -> merge_defs a k ds = DOk a' -> keptA f a'.
Proof.
  intros k a a' Hd Ka E. destruct (merge_defs_ok W Al ds k a) as (a2 & E2 & O & Q1 & Q2 & _ & H).
  { intros j d J. now apply (Hd j). }
  { apply (k_ok _ _ Ka). }
  rewrite E in E2. injection E2 as <-. destruct Ka as [A B C D]. split; [exact O| |congruence|congruence].
  intros sy i n Hh. apply H in Hh. destruct Hh as [Hh|(j & -> & Hh)]; [eauto|].
  destruct (nth_error ds j) as [d|] eqn:Ej; [|rewrite nth_overflow in Hh by (now apply nth_error_None); destruct Hh as (x & l & [] & _)].
  rewrite (nth_error_nth _ _ dm_empty Ej) in Hh. destruct (Hd j d Ej) as [_ Q]. eauto.
Qed.
Lemma merge_keep s o s' : kept s -> keptA (fnext (fxs s)) o -> mergeStates s o = DOk s' -> keeps s s'.
Proof.
  intros K Ko E. unfold mergeStates in E. destruct (merge_defs (cur s) 0 (adefs o)) as [a|] eqn:Em; [|discriminate]. cbn [dbind] in E.
  assert (Ka : keptA (fnext (fxs s)) a).
  { eapply mdefs_keep; [|exact (proj2 K)|exact Em]. intros j d J. cbn. assert (Q : defs o j = d) by (unfold defs; now apply nth_error_nth). rewrite <- Q.
    split; [apply (k_ok _ _ Ko)|]. intros i n H. exact (k_has _ _ Ko j i n H). }
  destruct (cur_keep s a K Ka) as [K0 L0]. destruct (mergeNodes (with_cur s a) (anode a) (anode o)) as [s1 n] eqn:E1.
  destruct (nodes_keep _ _ _ _ _ K0 (k_node _ _ Ka) (k_node _ _ Ko) E1) as ([K1 L1] & On & C1).
  destruct (mergeNodes s1 (acond a) (acond o)) as [s2 c] eqn:E2.
  assert (L : fnext (fxs s) <= fnext (fxs s1)) by (unfold leF in *; lia).
  destruct (nodes_keep _ _ _ _ _ K1 (oown_le _ _ _ L (k_cond _ _ Ka)) (oown_le _ _ _ L (k_cond _ _ Ko)) E2) as ([K2 L2] & Oc & C2).
  injection E as <-. assert (L' : fnext (fxs s) <= fnext (fxs s2)) by (unfold leF in *; lia).
  split; [|unfold leF in *; cbn [with_cur fxs]; lia]. split; [apply K2|]. cbn [with_cur cur fxs].
  destruct (keptA_le _ _ _ L' Ka) as [A B C D]. split; auto. exact (oown_le _ _ _ L2 On).
Qed.
Lemma join_keep s o s' : kept s -> keptA (fnext (fxs s)) o -> joinState s o = DOk s' -> keeps s s'.
Proof.
  intros K Ko E. unfold joinState in E. destruct (Bool.eqb _ _); [eapply merge_keep; eauto|].
  destruct (negb _); injection E as <-; [now apply cur_keep|now apply keeps_refl].
Qed.
Lemma unreach_keep f : keptA f unreachableState.
Proof.
  split; [| |exact I|exact I].
  - intros sy. unfold defs. cbn. destruct sy; apply okd_empty.
  - intros sy i n H. unfold hasA, defs in H. cbn in H. destruct sy; destruct H as (x & l & [] & _).
Qed.

(** * Statements *)
Definition all_refs (q : stmt) : trace := all_writes q ++ nb_writes auto_ q.
Definition call_refs (c : clist) : trace := call_writes c ++ cnb_writes auto_ c.
Lemma incl_app2 {A} (a b c d l : list A) : incl ((a ++ b) ++ c ++ d) l -> incl (a ++ c) l /\ incl (b ++ d) l.
Proof. intros H. split; intros x I; apply H; apply in_app_or in I; destruct I as [I|I]; apply in_or_app; [left|right|left|right]; apply in_or_app; auto. Qed.
Lemma incl_app1 {A} (a b l : list A) : incl (a ++ b) l -> incl a l /\ incl b l.
Proof. intros H. split; intros x I; apply H; apply in_or_app; auto. Qed.
Lemma static_id l : static auto_ l = l.
Proof. induction l as [|x l IH]; [reflexivity|]. cbn. f_equal. exact IH. Qed.
Lemma wr_in l0 (lhs : list ref) x : incl (writes l0 lhs) W -> In x lhs -> wref W x.
Proof. intros H I. exists l0, (snd x). split; [apply H; unfold writes; apply in_map_iff; exists x; destruct x; auto|auto]. Qed.

Lemma enter_if_keep s l c s' : kept s -> incl c R -> enter_if nm auto_ None s l None c = DOk s' -> keeps s s'.
Proof.
  intros K Hc E. unfold enter_if in E. destruct (create s (KCond l)) as [s1 n] eqn:Ec. destruct (create_keep _ _ _ _ K Ec) as ([K1 L1] & On & _).
  destruct (update_keep s1 n true K1 On) as [K2 L2]. destruct (notes_keep c _ s' K2 Hc E) as [K3 L3]. split; [exact K3|]. unfold leF in *. lia.
Qed.
Lemma enter_ifk_keep s l k c s' : kept s -> incl c R -> enter_if nm auto_ None s l k c = DOk s' -> keeps s s'.
Proof. destruct k as [k|]; [intros K Hc E; exact (notes_keep c s s' K Hc E)|apply enter_if_keep]. Qed.
Lemma enter_case_keep s l c s' : kept s -> incl c R -> enter_case nm auto_ None s l c = DOk s' -> keeps s s'.
Proof.
  intros K Hc E. unfold enter_case in E. destruct (create s (KCase l)) as [s1 n] eqn:Ec. destruct (create_keep _ _ _ _ K Ec) as ([K1 L1] & On & _).
  destruct (update_keep s1 n true K1 On) as [K2 L2]. destruct (notes_keep c _ s' K2 Hc E) as [K3 L3]. split; [exact K3|]. unfold leF in *. lia.
Qed.
Lemma branch_keep f k a inT inF : keptA f a -> branch_in k a = (inT, inF) -> keptA f inT /\ keptA f inF.
Proof. intros K E. destruct k as [[|]|]; injection E as <- <-; auto using unreach_keep. Qed.

Notation exec := (exec nm auto_ None).
Notation exec_items := (exec_items nm auto_ None).
Lemma exec_case s l c its : exec s (SCase l c its) = dbind (enter_case nm auto_ None s l c) (fun s1 => exec_items s1 (cur s1) unreachableState its).
Proof. reflexivity. Qed.
Lemma exec_keep : (forall q s s', incl (all_refs q) W -> incl (read_refs q) R -> kept s -> exec s q = DOk s' -> keeps s s') /\
  (forall c s a0 acc s', incl (call_refs c) W -> incl (cread_refs c) R -> kept s -> keptA (fnext (fxs s)) a0 -> keptA (fnext (fxs s)) acc -> exec_items s a0 acc c = DOk s' -> keeps s s').
Proof.
  apply stmt_clist.
  - intros s s' _ _ K E. injection E as <-. now apply keeps_refl.
  - intros l bl gs s s' Hw Hr K E. refine (aligned_keep s l bl gs s' K _ Hr E). intros g x Ig Ix. unfold all_refs in Hw. cbn [all_writes nb_writes] in Hw.
    destruct (incl_app1 _ _ _ Hw) as [H1 H2]. exists l, (snd x). split; [|auto]. destruct bl.
    + apply H1. apply in_flat_map. exists g. split; [exact Ig|]. cbn. unfold writes. apply in_map_iff. exists x. destruct x; auto.
    + apply H2. apply in_flat_map. exists g. split; [exact Ig|]. cbn. unfold writes. apply in_map_iff. exists x. destruct x; auto.
  - intros l bl lhs rhs s s' Hw Hr K E. refine (legacy_keep s l bl lhs rhs s' K _ Hr E). intros x Ix. unfold all_refs in Hw. cbn [all_writes nb_writes] in Hw.
    destruct (incl_app1 _ _ _ Hw) as [H1 H2]. destruct bl; [apply (wr_in l lhs x H1 Ix)|]. rewrite static_id in H2. apply (wr_in l lhs x H2 Ix).
  - intros p IHp q IHq s s' Hw Hr K E. cbn [M_DFA.exec] in E. destruct (exec s p) as [s1|] eqn:E1; [|discriminate]. cbn [dbind] in E.
    unfold all_refs in Hw. cbn [all_writes nb_writes read_refs] in Hw, Hr. apply incl_app2 in Hw. destruct Hw as [W1 W2]. apply incl_app1 in Hr. destruct Hr as [R1 R2].
    pose proof (IHp s s1 W1 R1 K E1) as K1. eapply keeps_trans; [exact K1|]. apply IHq; auto. apply K1.
  - intros l k c t IHt s s' Hw Hr K E. cbn [M_DFA.exec] in E. cbn [read_refs] in Hr. apply incl_app1 in Hr. destruct Hr as [R1 R2].
    destruct (enter_if nm auto_ None s l k c) as [s1|] eqn:E1; [|discriminate]. cbn [dbind] in E. pose proof (enter_ifk_keep s l k c s1 K R1 E1) as [K1 L1].
    destruct (branch_in k (cur s1)) as [inT inF] eqn:Eb. destruct (branch_keep _ k _ _ _ (proj2 K1) Eb) as [KT KF].
    destruct (exec (with_cur s1 inT) t) as [s2|] eqn:E2; [|discriminate]. cbn [dbind] in E. destruct (cur_keep s1 inT K1 KT) as [K1' L1'].
    destruct (IHt (with_cur s1 inT) s2 Hw R2 K1' E2) as [K2 L2].
    destruct (join_keep s2 inF s' K2) as [K3 L3]; [eapply keptA_le; [exact L2|]; exact KF|exact E|]. split; [exact K3|]. unfold leF in *. lia.
  - intros l k c t IHt e IHe s s' Hw Hr K E. cbn [M_DFA.exec] in E. unfold all_refs in Hw. cbn [all_writes nb_writes read_refs] in Hw, Hr. apply incl_app1 in Hr. destruct Hr as [R1 R2]. apply incl_app1 in R2. destruct R2 as [R2 R3].
    apply incl_app2 in Hw. destruct Hw as [W1 W2].
    destruct (enter_if nm auto_ None s l k c) as [s1|] eqn:E1; [|discriminate]. cbn [dbind] in E. pose proof (enter_ifk_keep s l k c s1 K R1 E1) as [K1 L1].
    destruct (branch_in k (cur s1)) as [inT inF] eqn:Eb. destruct (branch_keep _ k _ _ _ (proj2 K1) Eb) as [KT KF].
    destruct (exec (with_cur s1 inT) t) as [s2|] eqn:E2; [|discriminate]. cbn [dbind] in E. destruct (cur_keep s1 inT K1 KT) as [K1' L1'].
    destruct (IHt (with_cur s1 inT) s2 W1 R2 K1' E2) as [K2 L2].
    assert (KF2 : keptA (fnext (fxs s2)) inF) by (eapply keptA_le; [exact L2|]; exact KF). destruct (cur_keep s2 inF K2 KF2) as [K2' L2'].
    destruct (exec (with_cur s2 inF) e) as [s3|] eqn:E3; [|discriminate]. cbn [dbind] in E.
    destruct (IHe (with_cur s2 inF) s3 W2 R3 K2' E3) as [K3 L3].
    destruct (join_keep s3 (cur s2) s' K3) as [K4 L4]; [eapply keptA_le; [exact L3|]; exact (proj2 K2)|exact E|]. split; [exact K4|]. unfold leF in *. cbn [with_cur fxs] in *. lia.
  - intros l c its IH s s' Hw Hr K E. rewrite exec_case in E. cbn [read_refs] in Hr. apply incl_app1 in Hr. destruct Hr as [R1 R2].
    destruct (enter_case nm auto_ None s l c) as [s1|] eqn:E1; [|discriminate]. cbn [dbind] in E. pose proof (enter_case_keep s l c s1 K R1 E1) as K1.
    eapply keeps_trans; [exact K1|]. destruct K1 as [K1 L1]. refine (IH s1 (cur s1) unreachableState s' Hw R2 K1 (proj2 K1) (unreach_keep _) E).
  - intros s a0 acc s' _ _ K K0 Ka E. injection E as <-. now apply cur_keep.
  - intros p IHp s a0 acc s' Hw Hr K K0 Ka E. change (exec_items s a0 acc (CDefault p)) with (dbind (exec (with_cur s a0) p) (fun s1 => joinState (with_cur s1 acc) (cur s1))) in E.
    destruct (cur_keep s a0 K K0) as [K1 L1]. destruct (exec (with_cur s a0) p) as [s1|] eqn:E1; [|discriminate]. cbn [dbind] in E.
    destruct (IHp (with_cur s a0) s1 Hw Hr K1 E1) as [K2 L2]. destruct (cur_keep s1 acc K2) as [K3 L3]; [eapply keptA_le; [exact L2|exact Ka]|].
    destruct (join_keep _ _ _ K3 (proj2 K2) E) as [K4 L4]. split; [exact K4|]. unfold leF in *. cbn [with_cur fxs] in *. lia.
  - intros c p IHp r IHr s a0 acc s' Hw Hr K K0 Ka E.
    change (exec_items s a0 acc (CCons c p r)) with (dbind (each (noteReference nm auto_ None None) (with_cur s a0) c) (fun s1 => dbind (exec s1 p) (fun s2 => dbind (joinState (with_cur s2 acc) (cur s2)) (fun s3 => exec_items s3 a0 (cur s3) r)))) in E.
    unfold call_refs in Hw. cbn [call_writes cnb_writes cread_refs] in Hw, Hr. apply incl_app2 in Hw. destruct Hw as [W1 W2]. apply incl_app1 in Hr. destruct Hr as [R1 R2]. apply incl_app1 in R2. destruct R2 as [R2 R3].
    destruct (cur_keep s a0 K K0) as [K1 L1]. destruct (each (noteReference nm auto_ None None) (with_cur s a0) c) as [s1|] eqn:E1; [|discriminate]. cbn [dbind] in E. destruct (notes_keep c _ s1 K1 R1 E1) as [K2 L2].
    destruct (exec s1 p) as [s2|] eqn:E2; [|discriminate]. cbn [dbind] in E. destruct (IHp s1 s2 W1 R2 K2 E2) as [K3 L3].
    assert (Lg : fnext (fxs s) <= fnext (fxs s2)) by (unfold leF in *; cbn [with_cur fxs] in *; lia).
    destruct (cur_keep s2 acc K3) as [K4 L4]; [eapply keptA_le; [exact Lg|exact Ka]|].
    destruct (joinState (with_cur s2 acc) (cur s2)) as [s3|] eqn:E3; [|discriminate]. cbn [dbind] in E. destruct (join_keep _ _ _ K4 (proj2 K3) E3) as [K5 L5].
    assert (Lh : fnext (fxs s) <= fnext (fxs s3)) by (unfold leF in *; cbn [with_cur fxs] in *; lia).
    destruct (IHr s3 a0 (cur s3) s' W2 R3 K5) as [K6 L6]; [eapply keptA_le; [exact Lh|exact K0]|exact (proj2 K5)|exact E|]. split; [exact K6|]. unfold leF in *. lia.
Qed.
Lemma lv_keep f : forall l a a', (forall t b m, In (t, b, m) l -> own f m /\ inW W t (lower b) (upper b)) -> keptA f a -> process_lv a l = DOk a' -> keptA f a'.
Proof.
  induction l as [|[[t b] m] l IH]; intros a a' H K E; cbn [process_lv] in E; [injection E as <-; exact K|].
  destruct (trackDrivers a t b [m] false) as [a1|] eqn:E1; [|discriminate]. cbn [dbind] in E. destruct (H t b m (or_introl eq_refl)) as [O Iw].
  refine (IH a1 a' _ _ E); [intros t' b' m' I; apply H; now right|]. refine (track_keep f a t b [m] false a1 K Iw _ _ E1); [intros n [<-|[]]; exact O|discriminate].
Qed.
Lemma block_keep q s : incl (all_refs q) W -> incl (read_refs q) R -> run_block nm auto_ None n0 q = DOk s -> kept s.
Proof.
  intros Hw Hr E. unfold run_block in E. destruct (exec (start n0) q) as [s1|] eqn:E1; [|discriminate]. cbn [dbind] in E.
  assert (K0 : kept (start n0)).
  { split; [split; cbn; [lia|intros d []|intros p []|intros t b m []]|]. split; [| |exact I|exact I].
    - intros sy. unfold defs. cbn. destruct sy; apply okd_empty.
    - intros sy i n H. unfold hasA, defs in H. cbn in H. destruct sy; destruct H as (x & l & [] & _). }
  destruct (proj1 exec_keep q _ _ Hw Hr K0 E1) as [[Kf Ka] _]. unfold finalize in E. destruct (process_lv (cur s1) (flv (fxs s1))) as [a|] eqn:El; [|discriminate].
  injection E as <-. split; cbn [fxs cur].
  - destruct Kf as [A B C D]. split; cbn; auto. intros t b m [].
  - cbn [fnext]. refine (lv_keep _ _ _ _ _ Ka El). apply (k_lv _ Kf).
Qed.
End Keep.
