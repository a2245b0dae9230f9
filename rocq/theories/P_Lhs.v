(** Lemmas about assignment targets and force statements ([M_Lhs.v]). *)
From Verif Require Import Base M_Graph M_Range M_Netlist M_Annot M_Interval M_Heap M_Drivers M_Pending M_DFA M_Slice M_Port M_Flow M_Proc M_Lhs
  S_Slice S_DFA S_Flow S_Lhs P_Heap P_Drivers P_Slice P_Slice2 P_Slice3 P_DFA P_Flow3 P_Flow4.

Section Targets.
Context {V : Type}.
Variable vz : V.
Notation target := (target V).

Lemma target_rect' (P : target -> Prop) : (forall p w, P (TSel p w)) -> (forall p w i a, P (TVar p w i a)) ->
  (forall l, Forall P l -> P (TCat l)) -> forall t, P t.
Proof.
  intros A B C. fix F 1. intros [p w|p w i a|l]; [apply A|apply B|]. apply C. induction l as [|x l IH]; constructor; auto.
Qed.

Lemma all_t (P : target -> Prop) l : fold_right (fun x Q => P x /\ Q) True l <-> forall x, In x l -> P x.
Proof.
  induction l as [|y l IH]; cbn; [tauto|]. rewrite IH. split; [intros [A B] x [<-|I]; auto|auto].
Qed.
Lemma in_at_bits p off w s i : In (s, i) (at_bits p off w) <-> proot p = Some s /\ plo p + off <= i < plo p + off + w.
Proof.
  unfold at_bits. destruct (proot p) as [r|]; [|split; [intros []|intros [E _]; discriminate]]. rewrite in_map_iff. split.
  - intros (k & E & I). apply in_seq in I. inversion E; subst. split; [reflexivity|lia].
  - intros (E & L). inversion E; subst. exists (i - (plo p + off)). split; [f_equal; lia|apply in_seq; lia].
Qed.
Lemma in_cat_lands v l x : In x (lands vz v (TCat l)) <-> exists t, In t l /\ In x (lands vz v t).
Proof.
  cbn [lands]. rewrite in_concat. split.
  - intros (y & I & J). apply in_rev in I. apply in_map_iff in I. destruct I as (t & <- & I). eauto.
  - intros (t & I & J). exists (lands vz v t). split; [apply -> in_rev; now apply in_map|exact J].
Qed.
Lemma texpr_width : forall t : target, ew (texpr t) = tw t.
Proof. intros [p w|p w i a|l]; reflexivity. Qed.

(** The walk of the left-hand side. *)
Lemma lhs_covers v : forall t, well_formed t -> forall s i, In (s, i) (lands vz v t) ->
  exists p, In (true, p) (lhs_paths (texpr t)) /\ proot p = Some s /\ plo p <= i <= phi p.
Proof.
  apply (target_rect' (fun t => well_formed t -> forall s i, In (s, i) (lands vz v t) ->
    exists p, In (true, p) (lhs_paths (texpr t)) /\ proot p = Some s /\ plo p <= i <= phi p)).
  - intros p w (R & L & W) s i I. apply in_at_bits in I. destruct I as [E I]. exists p. split; [now left|]. split; [exact E|lia].
  - intros p w idx a (R & Z & W) s i I. cbn [lands] in I. apply in_at_bits in I. destruct I as [E I]. exists p.
    split; [cbn; apply in_or_app; right; now left|]. split; [exact E|]. specialize (W (eval vz v idx)). lia.
  - intros l F W s i I. apply in_cat_lands in I. destruct I as (t & I & J). cbn in W. rewrite all_t in W. rewrite Forall_forall in F.
    destruct (F t I (W t I) s i J) as (p & K & R). exists p. split; [|exact R]. cbn. apply in_flat_map. exists (texpr t). split; [now apply in_map|exact K].
Qed.
Lemma index_noted : forall t : target, indices_ok t -> forall s i, In (s, i) (index_reads t) ->
  exists p, In (false, p) (lhs_paths (texpr t)) /\ proot p = Some s /\ plo p <= i <= phi p.
Proof.
  apply (target_rect' (fun t => indices_ok t -> forall s i, In (s, i) (index_reads t) ->
    exists p, In (false, p) (lhs_paths (texpr t)) /\ proot p = Some s /\ plo p <= i <= phi p)).
  - intros p w _ s i [].
  - intros p w idx a P s i I. cbn in I. apply (reads_paths idx P) in I. destruct I as (q & I & R & L). exists q. split; [|split; [exact R|lia]].
    cbn. apply in_or_app. left. rewrite app_nil_r. now apply in_map.
  - intros l F W s i I. cbn in W, I. rewrite all_t in W. rewrite Forall_forall in F. apply in_flat_map in I. destruct I as (t & I & J).
    destruct (F t I (W t I) s i J) as (p & K & R). exists p. split; [|exact R]. cbn. apply in_flat_map. exists (texpr t). split; [now apply in_map|exact K].
Qed.
Lemma index_decides v1 v2 : forall t, agree v1 v2 (index_reads t) -> lands vz v1 t = lands vz v2 t.
Proof.
  apply (target_rect' (fun t => agree v1 v2 (index_reads t) -> lands vz v1 t = lands vz v2 t)).
  - reflexivity.
  - intros p w idx a A. cbn [lands]. now rewrite (reads_eval V vz v1 v2 idx A).
  - intros l F A. cbn [lands]. f_equal. f_equal. apply map_ext_in. intros t I. rewrite Forall_forall in F. apply (F t I).
    intros s i J. apply A. cbn. apply in_flat_map. eauto.
Qed.

(** Constant targets. *)
Lemma constant_lands v : forall t, constant_target t -> lands vz v t = lbits (texpr t).
Proof.
  apply (target_rect' (fun t => constant_target t -> lands vz v t = lbits (texpr t))).
  - intros p w _. cbn. unfold at_bits. destruct (proot p); [|reflexivity]. apply map_ext. intros k. f_equal. lia.
  - intros p w i a [].
  - intros l F C. cbn [lands texpr lbits]. f_equal. f_equal. rewrite map_map. apply map_ext_in. intros t I.
    cbn in C. rewrite all_t in C. rewrite Forall_forall in F. auto.
Qed.
Lemma constant_lvalue : forall t : target, constant_target t -> lvalue (texpr t).
Proof.
  apply (target_rect' (fun t => constant_target t -> lvalue (texpr t))); try (cbn; tauto).
  intros l F C. cbn [texpr lvalue]. cbn in C. rewrite all_t in C. rewrite all_in. rewrite Forall_forall in F.
  intros x I. apply in_map_iff in I. destruct I as (t & <- & I). auto.
Qed.
Lemma constant_typed : forall t : target, constant_target t -> well_formed t -> typed nodyn (texpr t).
Proof.
  apply (target_rect' (fun t => constant_target t -> well_formed t -> typed nodyn (texpr t))).
  - cbn. tauto.
  - intros p w i a [].
  - intros l F C W. cbn in C, W. rewrite all_t in C, W. rewrite Forall_forall in F. cbn [texpr typed]. split.
    + f_equal. rewrite map_map. apply map_ext. intros t. symmetry. apply texpr_width.
    + rewrite all_in. intros x I. apply in_map_iff in I. destruct I as (t & <- & I). auto.
Qed.
End Targets.

Section Force.
Context {V : Type}.
Variable vz : V.
Lemma rhs_notes_ln g : forall ss (l l' : list (nat * nat * nat)) a b (c : list (list V)),
  rhs_notes g ss (SegNode l a b c) = option_map (fun n => SegNode l (rn n) (ropq n) (rconst n)) (rhs_notes g ss (SegNode l' a b c)).
Proof.
  induction ss as [|x ss IH]; intros l l' a b c; [reflexivity|]. destruct x; cbn [rhs_notes]; cbn [ln rn ropq rconst]; auto.
  destruct (lsp_note p lo g); [apply IH|reflexivity].
Qed.
Lemma force_nodes : forall (gs : list (segment V)) ns, seg_nodes false false gs = Some ns ->
  seg_nodes true false gs = Some (map (fun n => SegNode [] (rn n) (ropq n) (rconst n)) ns).
Proof.
  induction gs as [|g gs IH]; intros ns E; cbn in *; [now inversion E|].
  destruct (seg_node false false g) as [n|] eqn:N; [|discriminate]. destruct (seg_nodes false false gs) as [m|]; [|discriminate].
  inversion E; subst. rewrite (IH m eq_refl). unfold seg_node in *. destruct (lhs_notes g (lsrcs g)) as [l|]; [|discriminate].
  rewrite (rhs_notes_ln g _ [] l), N. reflexivity.
Qed.
End Force.

Section State.
Context {V : Type}.
Variable vz : V.
Variable nm : nat -> str.
Variable automatic : nat -> bool.
Variable external : option nat.

(** Nothing is driven: no definition changes and no non-blocking write is recorded. *)
Definition still (s s' : st) : Prop := adefs (cur s') = adefs (cur s) /\ flv (fxs s') = flv (fxs s).
Lemma still_refl s : still s s.
Proof. now split. Qed.
Lemma still_trans a b c : still a b -> still b c -> still a c.
Proof. intros [A B] [C D]. split; congruence. Qed.
Lemma each_still {A} (f : st -> A -> dres st) : (forall s x s', f s x = DOk s' -> still s s') ->
  forall l s s', each f s l = DOk s' -> still s s'.
Proof.
  intros H. induction l as [|x l IH]; intros s s' E; cbn in E; [inversion E; apply still_refl|].
  destruct (f s x) as [s1|] eqn:F; [|discriminate]. cbn in E. eapply still_trans; eauto.
Qed.
Lemma addRvalues_still sy n : forall (xs : list (iv nat)) s, still s (fold_left (fun s2 x => addRvalue nm s2 sy (Range (ilo x) (ihi x)) n) xs s).
Proof. induction xs as [|x xs IH]; intros s; [apply still_refl|]. cbn. eapply still_trans; [|apply IH]. now split. Qed.
Lemma rvalue_still s sy b s' : handleRvalue nm external s sy b = DOk s' -> still s s'.
Proof.
  unfold handleRvalue. destruct (nth_error _ _) as [d|]; [|intros [= <-]; now split].
  destruct (anode (cur s)) as [m|]; [|intros [= <-]; now split].
  destruct (rv_loop nm d m sy b (dm_find d b)) as [[stop ds]|e]; [|discriminate]. cbn [dbind].
  destruct stop; intros [= <-]; [now split|]. eapply still_trans; [|apply addRvalues_still]. now split.
Qed.
Lemma note_still s x s' : noteReference nm automatic external None s x = DOk s' -> still s s'.
Proof.
  unfold noteReference. destruct (negb _); [intros [= <-]; apply still_refl|].
  destruct (automatic _); [intros [= <-]; apply still_refl|apply rvalue_still].
Qed.
Lemma rhs_still s r s' : drive_rhs nm automatic external s r = DOk s' -> still s s'.
Proof.
  destruct r as [[sy b]|l| |]; cbn [drive_rhs].
  - apply rvalue_still.
  - apply each_still. apply note_still.
  - intros [= <-]. apply still_refl.
  - destruct (anode (cur s)); intros [= <-]; now split.
Qed.
Lemma update_still s n c : still s (updateNode s n c).
Proof. unfold updateNode. destruct (acond (cur s)); now split. Qed.
Lemma legacy_force lvarg s l bl (lhs rhs : expr V) s' :
  assign_legacy nm automatic external true lvarg s l bl lhs rhs = DOk s' -> still s s'.
Proof.
  unfold assign_legacy. destruct (create s (KAssign l)) as [s1 n] eqn:C.
  assert (S0 : still s (updateNode s1 n false)) by (eapply still_trans; [|apply update_still]; inversion C; subst; now split).
  destruct (each _ (updateNode s1 n false) _) as [s2|] eqn:E; [|discriminate]. cbn [dbind].
  assert (S2 : still (updateNode s1 n false) s2).
  { eapply each_still; [|exact E]. intros a x b. unfold note_lhs. destruct (proot _); [|intros [= <-]; apply still_refl].
    destruct (fst x); apply note_still. }
  destruct lvarg; intros H; [inversion H; subst; eapply still_trans; eauto|].
  eapply still_trans; [exact S0|]. eapply still_trans; [exact S2|]. eapply each_still; [|exact H]. apply note_still.
Qed.
Lemma aligned_force s l bl : forall gs s', (forall g, In g gs -> slhs g = []) ->
  do_aligned nm automatic external s l bl gs = DOk s' -> still s s'.
Proof.
  unfold do_aligned. intros gs. generalize (anode (cur s)) (acond (cur s)). revert s. induction gs as [|g gs IH]; intros s sn sc s' H E; cbn [each] in E; [inversion E; apply still_refl|].
  destruct (do_seg nm automatic external l bl sn sc s g) as [s1|] eqn:D; [|discriminate]. cbn [dbind] in E.
  eapply still_trans; [|eapply IH; [|exact E]; intros; apply H; now right].
  unfold do_seg in D. rewrite (H g (or_introl eq_refl)) in D. cbn [each] in D.
  destruct (create _ _) as [s2 n] eqn:C. cbn [dbind] in D. inversion C; subst.
  eapply still_trans; [|eapply each_still; [apply rhs_still|exact D]]. eapply still_trans; [|apply update_still]. now split.
Qed.
Lemma segs_force : forall (gs : list (segment V)) lvarg l, segment_segs_f true lvarg gs = Some l -> forall g, In g l -> slhs g = [].
Proof.
  induction gs as [|g gs IH]; intros lvarg l E; cbn in E; [inversion E; intros ? []|].
  unfold segment_seg_f in E. destruct (if lvarg then Some [] else rhs_sources g (rsrcs g)); [|discriminate].
  destruct (segment_segs_f true lvarg gs) eqn:R; [|discriminate]. inversion E; subst. intros x [<-|I]; [reflexivity|eauto].
Qed.
Lemma force_still resolve h lvarg s l bl (lhs rhs : expr V) s' :
  handle_assign vz nm automatic external resolve h true lvarg s l bl lhs rhs = DOk s' -> still s s'.
Proof.
  unfold handle_assign. destruct (negb resolve); [apply legacy_force|]. destruct (negb _); [apply legacy_force|].
  destruct (segment_segs_f true lvarg _) eqn:E; [|discriminate]. apply aligned_force. eapply segs_force; eauto.
Qed.

(** A plain assignment: the model of [M_Proc.v]. *)
Lemma segs_plain : forall gs : list (segment V), segment_segs_f false false gs = segment_segs gs.
Proof. induction gs as [|g gs IH]; [reflexivity|]. cbn. rewrite IH. reflexivity. Qed.
Lemma lhs_plain : forall e : expr V, lvalue e -> lhs_paths e = map (pair true) (epaths e).
Proof.
  apply (expr_rect' V (fun e => lvalue e -> lhs_paths e = map (pair true) (epaths e))); try (intros; reflexivity || (cbn in *; tauto)).
  intros w es F L. cbn in *. rewrite all_in in L. rewrite Forall_forall in F. induction es as [|x es IH]; [reflexivity|].
  cbn. rewrite map_app, (F x), IH; auto using in_eq, in_cons.
Qed.
Lemma each_map {A B} (f : st -> A -> dres st) (g : B -> A) : forall l s, each f s (map g l) = each (fun s x => f s (g x)) s l.
Proof. induction l as [|x l IH]; intros s; [reflexivity|]. cbn. destruct (f s (g x)); [apply IH|reflexivity]. Qed.
Lemma each_ext {A} (f g : st -> A -> dres st) : (forall s x, f s x = g s x) -> forall l s, each f s l = each g s l.
Proof. intros H. induction l as [|x l IH]; intros s; [reflexivity|]. cbn. rewrite H. destruct (g s x); [apply IH|reflexivity]. Qed.
Lemma each_app {A} (f : st -> A -> dres st) : forall l1 l2 s, each f s (l1 ++ l2) = (do s1 <- each f s l1; each f s1 l2).
Proof. induction l1 as [|x l IH]; intros l2 s; [reflexivity|]. cbn. destruct (f s x); [apply IH|reflexivity]. Qed.
Lemma each_refs lv : forall ps s, each (note_lhs nm automatic external lv) s (map (pair true) ps) =
  each (noteReference nm automatic external lv) s (flat_map (fun p => match proot p with Some s => [(s, zrange (plo p) (phi p))] | None => [] end) ps).
Proof.
  induction ps as [|p ps IH]; intros s; [reflexivity|]. cbn [map each flat_map]. rewrite each_app. unfold note_lhs at 1. cbn [fst snd].
  destruct (proot p) as [sy|]; cbn [each dbind].
  - destruct (noteReference _ _ _ _ _ _); cbn [dbind]; [apply IH|reflexivity].
  - apply IH.
Qed.
Lemma plain_assign resolve h s bl (lhs rhs : expr V) q : lvalue lhs ->
  pasg_stmt vz resolve h bl lhs rhs = Some q ->
  handle_assign vz nm automatic external resolve h false false s 0 bl lhs rhs = exec nm automatic external s q.
Proof.
  intros L. assert (G : assign_legacy nm automatic external false false s 0 bl lhs rhs = exec nm automatic external s (SLegacy 0 bl (refs lhs) (refs rhs))).
  { cbn [exec]. unfold assign_legacy, do_legacy. destruct (create s (KAssign 0)) as [s1 n]. rewrite (lhs_plain lhs L), each_refs. reflexivity. }
  unfold pasg_stmt, handle_assign. destruct (negb resolve); [intros [= <-]; exact G|].
  destruct (negb _); [intros [= <-]; exact G|]. rewrite segs_plain.
  destruct (segment_segs _); [|discriminate]. intros [= <-]. reflexivity.
Qed.

(** The legacy walk of a non-blocking assignment, exactly. *)
Definition lw (n : nat) (ps : list (bool * path)) : list (nat * range * nat) :=
  flat_map (fun x : bool * path => if fst x then match proot (snd x) with Some s => [(s, zrange (plo (snd x)) (phi (snd x)), n)] | None => [] end else []) ps.
Definition lr (ps : list (bool * path)) : list ref :=
  flat_map (fun x : bool * path => if fst x then [] else match proot (snd x) with Some s => [(s, zrange (plo (snd x)) (phi (snd x)))] | None => [] end) ps.
Definition intact (a : astate) : Prop := forall sy, dok (defs a sy) /\ allvalid (defs a sy).
Lemma notes_read s m xs : anode (cur s) = Some m -> areach (cur s) = true -> (forall x, In x xs -> automatic (fst x) = false) -> intact (cur s) ->
  exists s' ds ps, each (noteReference nm automatic external None) s xs = DOk s' /\ rstep s s' ds ps /\ rds nm (defs (cur s)) m xs ds ps.
Proof.
  intros N R A K. revert s N R K. induction xs as [|[sy b] xs IH]; intros s N R K.
  - exists s, [], []. split; [reflexivity|]. split; [apply rstep_refl|apply rds_nil].
  - destruct (K sy) as [K1 K2]. destruct (handleRvalue_node nm external s sy b m N K1 K2) as (s1 & d1 & p1 & E1 & S1 & R1).
    pose proof (proj1 S1) as C1. destruct (IH (fun x I => A x (or_intror I)) s1) as (s2 & d2 & p2 & E2 & S2 & R2); try (rewrite C1; assumption).
    exists s2, (d1 ++ d2), (p1 ++ p2). cbn [each]. unfold noteReference at 1. rewrite R, (A (sy, b) (or_introl eq_refl)). cbn [negb fst snd]. rewrite E1. cbn [dbind].
    split; [exact E2|]. split; [eapply rstep_trans; eauto|]. rewrite C1 in R2. apply (rds_app nm _ m [(sy, b)] d1 p1 xs d2 p2 R1 R2).
Qed.
Lemma lhs_read s m ps : anode (cur s) = Some m -> areach (cur s) = true -> (forall x, automatic x = false) -> intact (cur s) ->
  exists s' ds qs, each (note_lhs nm automatic external (Some false)) s ps = DOk s' /\ cur s' = cur s /\
    fxs s' = FX (fnext (fxs s)) (fnodes (fxs s)) (fdeps (fxs s) ++ ds) (fpend (fxs s) ++ qs) (flv (fxs s) ++ lw m ps) /\
    rds nm (defs (cur s)) m (lr ps) ds qs.
Proof.
  intros N R A K. revert s N R K. induction ps as [|[b p] ps IH]; intros s N R K.
  - exists s, [], []. split; [reflexivity|]. split; [reflexivity|]. split; [rewrite !app_nil_r; now destruct (fxs s)|apply rds_nil].
  - cbn [each]. unfold note_lhs at 1. cbn [fst snd]. destruct (proot p) as [sy|] eqn:P.
    2:{ cbn [dbind]. destruct (IH s N R K) as (s' & ds & qs & E & C & F & D). exists s', ds, qs. unfold lw, lr. cbn [flat_map fst snd]. rewrite P. destruct b; auto. }
    unfold noteReference. cbn [fst snd]. rewrite R, (A sy). cbn [negb]. destruct b.
    + unfold handleLvalue. rewrite N. cbn [dbind]. destruct (IH (push_lv s (sy, zrange (plo p) (phi p), m)) N R K) as (s' & ds & qs & E & C & F & D).
      exists s', ds, qs. split; [exact E|]. split; [exact C|]. split; [|unfold lr; cbn [flat_map fst]; exact D].
      rewrite F. unfold lw. cbn [flat_map fst snd]. rewrite P. unfold push_lv, with_fx. cbn [fxs fnext fnodes fdeps fpend flv]. rewrite <- app_assoc. reflexivity.
    + destruct (K sy) as [K1 K2]. destruct (handleRvalue_node nm external s sy (zrange (plo p) (phi p)) m N K1 K2) as (s1 & d1 & p1 & E1 & (C1 & F1) & R1).
      rewrite E1. cbn [dbind]. destruct (IH s1) as (s2 & d2 & p2 & E2 & C2 & F2 & R2); try (rewrite C1; assumption).
      exists s2, (d1 ++ d2), (p1 ++ p2). split; [exact E2|]. split; [congruence|]. split.
      * rewrite F2, F1. unfold lw. cbn [fnext fnodes fdeps fpend flv flat_map fst]. rewrite <- !app_assoc. reflexivity.
      * rewrite C1 in R2. unfold lr. cbn [flat_map fst snd]. rewrite P. apply (rds_app nm _ m [_] d1 p1 _ d2 p2 R1 R2).
Qed.

(** From a state without definitions. *)
Lemma intact_nil a : adefs a = [] -> intact a.
Proof.
  intros E sy. unfold defs. rewrite E. replace (nth sy [] dm_empty) with dm_empty by (now destruct sy).
  split; [exact dok_empty|intros x []].
Qed.
Lemma pend_nil a m rs ds ps sy b i : adefs a = [] -> rds nm (defs a) m rs ds ps -> In (sy, b) rs -> bit b i ->
  exists x, In x ps /\ psym x = sy /\ pnode x = Some m /\ bit (pbounds x) i.
Proof.
  intros E R I B. destruct (rds_pcomplete _ _ _ _ _ _ R sy b i I B) as (x & J & S & C).
  - unfold defs. rewrite E. replace (nth sy [] dm_empty) with dm_empty by (now destruct sy). intros (y & [] & _).
  - exists x. split; [exact J|]. split; [exact S|]. split; [apply (rds_psound _ _ _ _ _ _ R x J)|exact C].
Qed.
Lemma in_lw n ps p s : In (true, p) ps -> proot p = Some s -> In (s, zrange (plo p) (phi p), n) (lw n ps).
Proof. intros I E. unfold lw. apply in_flat_map. exists (true, p). split; [exact I|]. cbn [fst snd]. rewrite E. now left. Qed.
Lemma in_lr ps p s : In (false, p) ps -> proot p = Some s -> In (s, zrange (plo p) (phi p)) (lr ps).
Proof. intros I E. unfold lr. apply in_flat_map. exists (false, p). split; [exact I|]. cbn [fst snd]. rewrite E. now left. Qed.

Lemma legacy_target s l (t : target V) (rhs : expr V) : (forall x, automatic x = false) -> adefs (cur s) = [] -> areach (cur s) = true ->
  well_formed t -> indices_ok t -> paths_ok rhs ->
  exists s', assign_legacy nm automatic external false false s l false (texpr t) rhs = DOk s' /\
    In (fnext (fxs s), KAssign l) (fnodes (fxs s')) /\
    (forall v sy i, In (sy, i) (lands vz v t) -> exists b, In (sy, b, fnext (fxs s)) (flv (fxs s')) /\ bit b (Z.of_nat i)) /\
    (forall sy i, In (sy, i) (index_reads t) \/ In (sy, i) (S_Slice.reads rhs) ->
       exists x, In x (fpend (fxs s')) /\ psym x = sy /\ pnode x = Some (fnext (fxs s)) /\ bit (pbounds x) (Z.of_nat i)).
Proof.
  intros A D R W IO PO. unfold assign_legacy. destruct (create s (KAssign l)) as [s1 n] eqn:C.
  assert (Cs : cur s1 = cur s /\ n = fnext (fxs s) /\ fnodes (fxs s1) = fnodes (fxs s) ++ [(n, KAssign l)]) by (inversion C; subst; repeat split).
  destruct Cs as (C1 & -> & C3). clear C. set (m := fnext (fxs s)) in *. set (s2 := updateNode s1 m false).
  assert (U : adefs (cur s2) = [] /\ anode (cur s2) = Some m /\ areach (cur s2) = true /\ fnodes (fxs s2) = fnodes (fxs s1)).
  { unfold s2, updateNode. destruct (acond (cur s1)); cbn; rewrite C1; auto. }
  destruct U as (U1 & U2 & U3 & U4).
  destruct (lhs_read s2 m (lhs_paths (texpr t)) U2 U3 A (intact_nil _ U1)) as (s3 & d1 & p1 & E1 & K1 & F1 & R1). rewrite E1. cbn [dbind].
  destruct (notes_read s3 m (refs rhs)) as (s4 & d2 & p2 & E2 & (K2 & F2) & R2); try (rewrite K1; assumption); auto.
  { rewrite K1. now apply intact_nil. }
  exists s4. split; [exact E2|]. rewrite F2. cbn [fnodes fpend flv]. rewrite F1. cbn [fnodes fpend flv]. split; [|split].
  - rewrite U4, C3. apply in_or_app. right. now left.
  - intros v sy i I. destruct (lhs_covers vz v t W sy i I) as (p & J & P & L). exists (zrange (plo p) (phi p)).
    split; [apply in_or_app; right; now apply in_lw|]. apply zbit; lia.
  - intros sy i [I|I].
    + destruct (index_noted t IO sy i I) as (p & J & P & L).
      destruct (pend_nil _ m _ _ _ sy (zrange (plo p) (phi p)) (Z.of_nat i) U1 R1 (in_lr _ p sy J P)) as (x & Q & S); [apply zbit; lia|].
      exists x. split; [|exact S]. apply in_or_app. left. apply in_or_app. now right.
    + apply (refs_reads rhs sy i PO) in I. destruct I as (b & I & B). rewrite K1 in R2.
      destruct (pend_nil _ m _ _ _ sy b (Z.of_nat i) U1 R2 I B) as (x & Q & S). exists x. split; [|exact S]. apply in_or_app. now right.
Qed.
End State.

Lemma constant_driven : forall V (vz : V) h (t : target V) rhs, sorted_hints h ->
  constant_target t -> well_formed t -> typed nodyn rhs -> ew rhs = tw t ->
  exists ns, assign vz h false false (texpr t) rhs = ANodes ns /\
    forall v s i, (exists n, In n ns /\ noted (ln n) s i) <-> In (s, i) (lands vz v t).
Proof.
  intros V vz h t rhs Sh C W Tr E. pose proof (constant_typed t C W) as Tl.
  assert (Ew : ew (texpr t) = ew rhs) by (now rewrite texpr_width).
  destruct (assign_spec V vz h (texpr t) rhs Sh Tl Tr Ew) as (ns & En & F). exists ns. split; [exact En|].
  destruct (build_list_spec V vz h (texpr t) Sh Tl) as (Til & _ & _).
  destruct (build_list_spec V vz h rhs Sh Tr) as (Tir & _ & _). rewrite <- Ew in Tir.
  assert (Q : forall v s i, In (s, i) (lands vz v t) <-> exists k, k < ew (texpr t) /\ In (ABit (Some s) i) (nth k (bits vz (texpr t)) [])).
  { intros v s i. rewrite (constant_lands vz v t C). destruct (lv_bits vz (texpr t) (constant_lvalue t C) Tl) as (B1 & _). rewrite B1.
    pose proof (bits_length V vz (texpr t) Tl) as BL. rewrite B1, map_length in BL. split.
    - intros I. apply (In_nth _ _ (0, 0)) in I. destruct I as (k & K & I). exists k. split; [lia|].
      rewrite (nth_indep _ _ [ABit (Some (fst (0, 0))) (snd (0, 0))]) by (now rewrite map_length).
      rewrite (map_nth (fun x : nat * nat => [ABit (Some (fst x)) (snd x)])). rewrite I. now left.
    - intros (k & K & I). rewrite (nth_indep _ _ [ABit (Some (fst (0, 0))) (snd (0, 0))]) in I by (rewrite map_length; lia).
      rewrite (map_nth (fun x : nat * nat => [ABit (Some (fst x)) (snd x)])) in I. destruct I as [I|[]].
      injection I as <- <-. rewrite <- surjective_pairing. apply nth_In. lia. }
  intros v s i. rewrite (Q v). split.
  - intros (n & I & A). destruct (Forall2_in_r _ _ _ _ F I) as (g & Ig & Q1 & _). apply Q1 in A. destruct A as (k & K & A).
    destruct (align_facts V _ _ _ g Til Tir Ig) as (L1 & L2 & _). exists k. split; [lia|exact A].
  - intros (k & K & A). destruct (align_cover V _ _ _ k Til Tir K) as (g & Ig & G1).
    destruct (Forall2_in_l _ _ _ _ F Ig) as (n & I & Q1 & _). exists n. split; [exact I|]. apply Q1. eauto.
Qed.
Lemma force_assign : forall V (vz : V) h (lhs rhs : expr V) ns, assign vz h false false lhs rhs = ANodes ns ->
  assign vz h true false lhs rhs = ANodes (map (fun n => SegNode [] (rn n) (ropq n) (rconst n)) ns).
Proof.
  intros V vz h lhs rhs ns. unfold assign. destruct (negb _); [discriminate|].
  destruct (seg_nodes false false _) as [m|] eqn:E; [|discriminate]. intros [= <-]. now rewrite (force_nodes _ _ E).
Qed.
