(** Proofs about whole designs: the segments of one continuous assignment. *)
From Coq Require Import Sorted.
From Verif Require Import Base M_Graph M_Range M_Netlist M_Annot M_Interval M_Heap M_Drivers M_Pending M_DFA M_Builder M_Slice M_Port M_Flow
  S_Reach S_Netlist S_Interval S_Drivers S_DFA S_Slice S_Port S_Flow
  P_Interval P_Heap P_Drivers P_DriversX P_DFA P_DFA2 P_Slice P_Slice2 P_Flow2.

Lemma zbit a b i : a <= b -> (bit (zrange a b) i <-> (Z.of_nat a <= i <= Z.of_nat b)%Z).
Proof. intros L. rewrite bit_lu. unfold zrange, lower, upper. cbn. lia. Qed.
Lemma zlu a b : a <= b -> lower (zrange a b) = Z.of_nat a /\ upper (zrange a b) = Z.of_nat b.
Proof. intros L. unfold zrange, lower, upper. cbn. lia. Qed.

Section F.
Context {V : Type}.
Variable vz : V.
Notation expr := (expr V).
Notation bits := (bits vz).
Notation eval := (eval vz).

(** * L-values *)
Definition pbits (p : path) : list (nat * nat) :=
  match proot p with Some s => map (fun i => (s, plo p + i)) (seq 0 (phi p + 1 - plo p)) | None => [] end.
Lemma in_pbits p t i : In (t, i) (pbits p) <-> proot p = Some t /\ plo p <= i < phi p + 1.
Proof.
  unfold pbits. destruct (proot p) as [s|]; [|split; [intros []|intros [E _]; discriminate]].
  rewrite in_map_iff. split.
  - intros (k & E & I). apply in_seq in I. inversion E; subst. split; [reflexivity|lia].
  - intros [E L]. inversion E; subst. exists (i - plo p). split; [f_equal; lia|]. apply in_seq. lia.
Qed.

Lemma all_in (P : expr -> Prop) l : fold_right (fun x Q => P x /\ Q) True l <-> forall x, In x l -> P x.
Proof. rewrite all_Forall. apply Forall_forall. Qed.

Lemma lv_bits : forall e : expr, lvalue e -> typed nodyn e ->
  bits e = map (fun x => [ABit (Some (fst x)) (snd x)]) (lbits e) /\
  (forall v, eval v e = map (fun x => v (fst x) (snd x)) (lbits e)) /\
  lbits e = flat_map pbits (rev (lpaths e)) /\
  forall p, In p (lpaths e) -> proot p <> None /\ plo p <= phi p.
Proof.
  apply (expr_rect' V (fun e => lvalue e -> typed nodyn e ->
    bits e = map (fun x => [ABit (Some (fst x)) (snd x)]) (lbits e) /\
    (forall v, eval v e = map (fun x => v (fst x) (snd x)) (lbits e)) /\
    lbits e = flat_map pbits (rev (lpaths e)) /\
    forall p, In p (lpaths e) -> proot p <> None /\ plo p <= phi p)).
  - intros p w _ (A & B & C). cbn [S_Slice.bits lbits S_Slice.eval lpaths rev app flat_map]. rewrite app_nil_r. unfold pbits.
    destruct (proot p) as [s|] eqn:E; [|congruence]. rewrite !map_map. cbn [fst snd].
    split; [reflexivity|]. split; [intros v; rewrite map_map; apply map_ext; intros k; unfold look; now rewrite E|]. split; [now rewrite B|].
    intros q [<-|[]]. split; [congruence|exact A].
  - intros p w ops f _ [].
  - intros w es IH L (_ & T). rewrite all_in in T. cbn [lvalue] in L. rewrite all_in in L.
    cbn [S_Slice.bits lbits S_Slice.eval lpaths].
    assert (X : forall l, (forall e, In e l -> bits e = map (fun x => [ABit (Some (fst x)) (snd x)]) (lbits e) /\
        (forall v, eval v e = map (fun x => v (fst x) (snd x)) (lbits e)) /\ lbits e = flat_map pbits (rev (lpaths e))) ->
      concat (map bits l) = map (fun x => [ABit (Some (fst x)) (snd x)]) (concat (map lbits l)) /\
      (forall v, concat (map (eval v) l) = map (fun x => v (fst x) (snd x)) (concat (map lbits l))) /\
      concat (map lbits l) = flat_map pbits (flat_map (fun e => rev (lpaths e)) l)).
    { induction l as [|e l IHl]; intros H; [cbn; auto|]. destruct IHl as (A1 & A2 & A3); [intros x I; apply H; now right|].
      destruct (H e (or_introl eq_refl)) as (B1 & B2 & B3). cbn [map concat flat_map]. split; [rewrite map_app; congruence|].
      split; [intros v; rewrite map_app, B2, A2; reflexivity|]. rewrite flat_map_app. congruence. }
    assert (H : forall e, In e es -> bits e = map (fun x => [ABit (Some (fst x)) (snd x)]) (lbits e) /\
        (forall v, eval v e = map (fun x => v (fst x) (snd x)) (lbits e)) /\ lbits e = flat_map pbits (rev (lpaths e)) /\
        forall p, In p (lpaths e) -> proot p <> None /\ plo p <= phi p).
    { intros e I. rewrite Forall_forall in IH. apply IH; auto. }
    rewrite <- !map_rev. destruct (X (rev es)) as (A1 & A2 & A3).
    { intros e I. apply in_rev in I. destruct (H e I) as (B1 & B2 & B3 & _). auto. }
    split; [exact A1|]. split; [intros v; rewrite <- map_rev; apply A2|]. split.
    + rewrite A3. f_equal. clear. induction es as [|e es IHe]; [reflexivity|]. cbn [rev flat_map]. rewrite flat_map_app, rev_app_distr, IHe.
      cbn [flat_map]. now rewrite app_nil_r.
    + intros p I. apply in_flat_map in I. destruct I as (e & I & J). apply (H e I). exact J.
  - intros w n e _ [].
  - intros w prop si so fold e _ [].
  - intros w s c l r m _ _ _ [].
  - intros w fold ops f _ [].
Qed.
Lemma lv_length (e : expr) : lvalue e -> typed nodyn e -> length (lbits e) = ew e.
Proof. intros L T. rewrite <- (bits_length V vz e T). destruct (lv_bits e L T) as (-> & _). now rewrite map_length. Qed.

Lemma flat_map_same {A B} (f : A -> list B) : forall l x y z, NoDup (flat_map f l) -> In x l -> In y l ->
  In z (f x) -> In z (f y) -> x = y.
Proof.
  induction l as [|a l IH]; intros x y z N Ix Iy Zx Zy; [destruct Ix|]. cbn [flat_map] in N.
  assert (D : forall z, In z (f a) -> ~ In z (flat_map f l)).
  { intros z' I J. clear -N I J. induction (f a) as [|b r IHr]; [destruct I|]. cbn in N. inversion N as [|? ? N1 N2]; subst.
    destruct I as [<-|I]; [apply N1, in_or_app; now right|now apply IHr]. }
  assert (N2 : NoDup (flat_map f l)).
  { clear -N. induction (f a) as [|b r IHr]; [exact N|]. cbn in N. inversion N. now apply IHr. }
  destruct Ix as [<-|Ix], Iy as [<-|Iy]; auto.
  - exfalso. apply (D z Zx), in_flat_map. eauto.
  - exfalso. apply (D z Zy), in_flat_map. eauto.
  - eapply IH; eauto.
Qed.

(** * Slices of L-values *)
Definition lslice (h : hints) (e : expr) (s : slice V) : Prop :=
  exists p lo hi t, srcs s = [SLsp p lo hi] /\ In p (lpaths e) /\ proot p = Some t /\ lo <= clo s /\
    plo p + (chi s - lo) <= phi p + 1 /\
    forall l c, h t = Some l -> In c l -> ~ plo p + (clo s - lo) < c < plo p + (chi s - lo).

Lemma boundary_outside : forall (sl : list (slice V)) lo hi s k, tiled lo sl hi -> In s sl -> boundary sl k -> k <= clo s \/ chi s <= k.
Proof.
  induction sl as [|a sl IH]; intros lo hi s k T Is (x & Ix & Ek); [destruct Is|]. cbn [tiled] in T. destruct T as (T1 & T2 & T3).
  destruct Is as [<-|Is], Ix as [<-|Ix].
  - right. lia.
  - pose proof (tiled_bounds V _ _ _ _ T3 Ix). right. lia.
  - pose proof (tiled_bounds V _ _ _ _ T3 Is). left. lia.
  - eapply IH; eauto. exists x. auto.
Qed.

Lemma lv_slices h : sorted_hints h -> forall e : expr, lvalue e -> typed nodyn e -> forall out W, tiled 0 out W ->
  exists new, build vz h e out = out ++ new /\ tiled W new (W + ew e) /\ forall s, In s new -> lslice h e s.
Proof.
  intros Sh. apply (expr_rect' V (fun e => lvalue e -> typed nodyn e -> forall out W, tiled 0 out W ->
    exists new, build vz h e out = out ++ new /\ tiled W new (W + ew e) /\ forall s, In s new -> lslice h e s)).
  - intros p w _ (A & B & C) out W T. cbn [build ew]. rewrite pushLsp_eq, (tiled_width V _ _ T).
    destruct (proot p) as [t|] eqn:Rt; [|congruence].
    destruct (Nat.eqb_spec w 0) as [E|E]; [lia|].
    destruct (splits_spec h p Sh) as [S SI]. destruct (splits h p) as [|c cs].
    + eexists. split; [reflexivity|]. split; [apply tiled_one; lia|]. intros s [<-|[]].
      exists p, W, (W + w), t. cbn [srcs clo chi lpaths]. split; [reflexivity|]. split; [now left|]. split; [exact Rt|].
      split; [lia|]. split; [lia|]. intros l c Hl Ic L. apply (SI c). split; [lia|]. exists t, l. auto.
    + destruct (emit_spec V vz W p (c :: cs) (plo p)) as (T1 & _ & B1 & Q1); [lia|lia|exact S| |].
      { intros d I. apply SI in I. lia. }
      rewrite Nat.sub_diag, Nat.add_0_r in T1. subst w.
      eexists. split; [reflexivity|]. split; [exact T1|]. intros s I. pose proof (tiled_bounds V _ _ _ _ T1 I) as Bs.
      exists p, W, (W + (phi p + 1 - plo p)), t. split; [now apply Q1|]. split; [now left|]. split; [exact Rt|].
      split; [lia|]. split; [lia|]. intros l d Hl Id L.
      assert (Id' : In d (c :: cs)). { apply SI. split; [lia|]. exists t, l. auto. }
      assert (Bd : boundary (emit (V := V) W p (plo p) (c :: cs)) (W + (d - plo p))). { apply B1. right. exists d. auto. }
      pose proof (boundary_outside _ _ _ s _ T1 I Bd). apply SI in Id'. lia.
  - intros p w ops f _ [].
  - intros w es IH L (-> & H) out W T. rewrite all_in in H. cbn [lvalue] in L. rewrite all_in in L. cbn [build ew].
    rewrite Forall_forall in IH.
    assert (X : forall es', (forall x, In x es' -> In x es) -> exists new, fold_right (build vz h) out es' = out ++ new /\
      tiled W new (W + list_sum (map ew es')) /\ forall s, In s new -> lslice h (EConcat (list_sum (map ew es)) es) s).
    { induction es' as [|e es' IHe]; intros Sub.
      - exists []. rewrite app_nil_r. split; [reflexivity|]. split; [cbn; lia|]. intros s [].
      - destruct IHe as (n1 & E1 & T1 & Q1); [intros x I; apply Sub; now right|].
        assert (Ie : In e es) by (apply Sub; now left).
        destruct (IH e Ie (L e Ie) (H e Ie) (out ++ n1) (W + list_sum (map ew es'))) as (n2 & E2 & T2 & Q2).
        { apply tiled_out; [exact T|exact T1]. }
        exists (n1 ++ n2). cbn [fold_right]. rewrite E1, E2, app_assoc. split; [reflexivity|]. split.
        + change (list_sum (map ew (e :: es'))) with (ew e + list_sum (map ew es')). apply tiled_app.
          exists (W + list_sum (map ew es')). split; [exact T1|]. replace (W + (ew e + list_sum (map ew es'))) with (W + list_sum (map ew es') + ew e) by lia. exact T2.
        + intros s I. apply in_app_or in I. destruct I as [I|I]; [auto|].
          destruct (Q2 s I) as (p & lo & hi & t & A1 & A2 & A3). exists p, lo, hi, t. split; [exact A1|]. split; [|exact A3].
          cbn [lpaths]. apply in_flat_map. eauto. }
    apply X. auto.
  - intros w n e _ [].
  - intros w prop si so fold e _ [].
  - intros w s c l r m _ _ _ [].
  - intros w fold ops f _ [].
Qed.

(** * References of an expression *)
Lemma reads_paths : forall e : expr, paths_ok e -> forall s i,
  In (s, i) (reads e) <-> exists p, In p (epaths e) /\ proot p = Some s /\ plo p <= i <= phi p.
Proof.
  assert (Lsp : forall p n s i, plo p <= phi p -> n = phi p + 1 - plo p ->
    (In (s, i) (lsp_reads p (plo p) n) <-> proot p = Some s /\ plo p <= i <= phi p)).
  { intros p n s i L ->. unfold lsp_reads. destruct (proot p) as [t|]; [|split; [intros []|intros [E _]; discriminate]].
    rewrite in_map_iff. split.
    - intros (k & E & I). apply in_seq in I. inversion E; subst. split; [reflexivity|lia].
    - intros [E K]. inversion E; subst. exists i. split; [reflexivity|]. apply in_seq. lia. }
  assert (Lst : forall es : list expr, Forall (fun e => paths_ok e -> forall s i, In (s, i) (reads e) <-> exists p, In p (epaths e) /\ proot p = Some s /\ plo p <= i <= phi p) es ->
    (forall x, In x es -> paths_ok x) -> forall s i, In (s, i) (flat_map reads es) <-> exists p, In p (flat_map epaths es) /\ proot p = Some s /\ plo p <= i <= phi p).
  { intros es F P s i. rewrite Forall_forall in F. rewrite in_flat_map. split.
    - intros (e & I & J). apply (F e I (P e I)) in J. destruct J as (p & J & R). exists p. split; [apply in_flat_map; eauto|exact R].
    - intros (p & J & R). apply in_flat_map in J. destruct J as (e & I & J). exists e. split; [exact I|]. apply (F e I (P e I)). eauto. }
  apply (expr_rect' V (fun e => paths_ok e -> forall s i, In (s, i) (reads e) <-> exists p, In p (epaths e) /\ proot p = Some s /\ plo p <= i <= phi p)).
  - intros p w (A & B) s i. cbn [reads epaths]. rewrite (Lsp p w s i A B). split; [intros R; exists p; split; [now left|exact R]|].
    intros (q & [<-|[]] & R). exact R.
  - intros p w ops f F (A & B) s i. rewrite all_in in B. cbn [reads epaths]. rewrite in_app_iff, (Lsp p _ s i A eq_refl), (Lst ops F B). split.
    + intros [R|(q & I & R)]; [exists p|exists q]; (split; [apply in_or_app; cbn; auto|exact R]).
    + intros (q & I & R). apply in_app_or in I. destruct I as [I|[<-|[]]]; [right; eauto|now left].
  - intros w es F P s i. cbn [paths_ok] in P. rewrite all_in in P. cbn [reads epaths]. now apply Lst.
  - intros w n e IH P. exact (IH P).
  - intros w prop si so fold e IH P. exact (IH P).
  - intros w sm c l r m Ic Il Ir (P1 & P2 & P3) s i. cbn [reads epaths]. rewrite !in_app_iff, (Ic P1), (Il P2), (Ir P3). split.
    + intros [(p & I & R)|[(p & I & R)|(p & I & R)]]; exists p; (split; [rewrite !in_app_iff; auto|exact R]).
    + intros (p & I & R). rewrite !in_app_iff in I. destruct I as [I|[I|I]]; [left|right; left|right; right]; eauto.
  - intros w fold ops f F P s i. cbn [paths_ok] in P. rewrite all_in in P. cbn [reads epaths]. now apply Lst.
Qed.
Lemma paths_le : forall e : expr, paths_ok e -> forall p, In p (epaths e) -> plo p <= phi p.
Proof.
  assert (Lst : forall es : list expr, Forall (fun e => paths_ok e -> forall p, In p (epaths e) -> plo p <= phi p) es ->
    (forall x, In x es -> paths_ok x) -> forall p, In p (flat_map epaths es) -> plo p <= phi p).
  { intros es F P p I. rewrite Forall_forall in F. apply in_flat_map in I. destruct I as (e & I & J). exact (F e I (P e I) p J). }
  apply (expr_rect' V (fun e => paths_ok e -> forall p, In p (epaths e) -> plo p <= phi p)).
  - intros p w (A & B) q [<-|[]]. exact A.
  - intros p w ops f F (A & B) q I. rewrite all_in in B. cbn in I. apply in_app_or in I. destruct I as [I|[<-|[]]]; [eapply Lst; eauto|exact A].
  - intros w es F P q I. cbn [paths_ok] in P. rewrite all_in in P. eapply Lst; eauto.
  - intros w n e IH P. exact (IH P).
  - intros w prop si so fold e IH P. exact (IH P).
  - intros w sm c l r m Ic Il Ir (P1 & P2 & P3) q I. cbn in I. rewrite !in_app_iff in I. destruct I as [I|[I|I]]; eauto.
  - intros w fold ops f F P q I. cbn [paths_ok] in P. rewrite all_in in P. eapply Lst; eauto.
Qed.
Lemma in_refs (e : expr) t b : In (t, b) (refs e) <-> exists p, In p (epaths e) /\ proot p = Some t /\ b = zrange (plo p) (phi p).
Proof.
  unfold refs. rewrite in_flat_map. split.
  - intros (p & I & J). exists p. destruct (proot p) as [s|]; [|destruct J]. destruct J as [J|[]]. inversion J; subst. auto.
  - intros (p & I & E & ->). exists p. split; [exact I|]. rewrite E. now left.
Qed.
Lemma refs_reads (e : expr) t i : paths_ok e -> (rbit (refs e) t (Z.of_nat i) <-> In (t, i) (reads e)).
Proof.
  intros P. rewrite (reads_paths e P). unfold rbit. split.
  - intros (b & I & B). apply in_refs in I. destruct I as (p & I & E & ->). exists p. rewrite zbit in B by (eapply paths_le; eauto). split; [exact I|]. split; [exact E|lia].
  - intros (p & I & E & L). exists (zrange (plo p) (phi p)). split; [apply in_refs; eauto|]. rewrite zbit by lia. lia.
Qed.
Lemma refs_nat (e : expr) t i : paths_ok e -> rbit (refs e) t i -> exists k, i = Z.of_nat k.
Proof.
  intros P (b & I & B). apply in_refs in I. destruct I as (p & I & E & ->). rewrite zbit in B by (eapply paths_le; eauto).
  exists (Z.to_nat i). lia.
Qed.

(** What the origins of a bit read, the expression reads. *)
Lemma atom_sub : forall e : expr, paths_ok e -> forall k a, In a (nth k (bits e) []) ->
  (forall x, a = AOpq x -> paths_ok x) /\ incl (atom_reads a) (reads e).
Proof.
  assert (Rep : forall (e : expr) w k a, In a (nth k (repeat [AOpq e] w) []) -> a = AOpq e).
  { intros e w k a I. destruct (Nat.lt_ge_cases k w).
    - rewrite (nth_indep _ [] [AOpq e]) in I by (now rewrite repeat_length). rewrite nth_repeat in I. destruct I as [<-|[]]. reflexivity.
    - rewrite nth_overflow in I by (now rewrite repeat_length). destruct I. }
  assert (Opq : forall e : expr, paths_ok e -> forall a, a = AOpq e -> (forall x, a = AOpq x -> paths_ok x) /\ incl (atom_reads a) (reads e)).
  { intros e P a ->. split; [intros x E; inversion E; subst; exact P|apply incl_refl]. }
  assert (Cst : forall (R : list (nat * nat)) (l : list V) k a, In a (nth k (map (fun b => [AConst b]) l) []) ->
     (forall x, a = AOpq x -> paths_ok x) /\ incl (atom_reads a) R).
  { intros R l k a I. assert (J : In (nth k (map (fun b : V => [AConst b]) l) []) (map (fun b => [AConst b]) l)).
    { apply nth_In. destruct (Nat.lt_ge_cases k (length (map (fun b : V => [AConst (V := V) b]) l))) as [L|L]; [exact L|].
      rewrite nth_overflow in I by exact L. destruct I. }
    apply in_map_iff in J. destruct J as (c & E & _). rewrite <- E in I. destruct I as [<-|[]]. split; [intros x Q; discriminate|intros y []]. }
  assert (Cat : forall (R : list (nat * nat)) (ls : list (list (list (atom V)))),
     (forall l k a, In l ls -> In a (nth k l []) -> (forall x, a = AOpq x -> paths_ok x) /\ incl (atom_reads a) R) ->
     forall k a, In a (nth k (concat ls) []) -> (forall x, a = AOpq x -> paths_ok x) /\ incl (atom_reads a) R).
  { intros R. induction ls as [|l ls IHl]; intros H k a I; [destruct k; destruct I|]. cbn [concat] in I.
    destruct (Nat.lt_ge_cases k (length l)) as [Lt|Ge].
    - rewrite app_nth1 in I by exact Lt. apply (H l k a); [now left|exact I].
    - rewrite app_nth2 in I by exact Ge. eapply IHl; [|exact I]. intros l' k' a' J. apply H. now right. }
  apply (expr_rect' V (fun e => paths_ok e -> forall k a, In a (nth k (bits e) []) ->
    (forall x, a = AOpq x -> paths_ok x) /\ incl (atom_reads a) (reads e))).
  - intros p w (A & B) k a I. cbn [S_Slice.bits reads] in *.
    destruct (Nat.lt_ge_cases k w) as [L|L].
    + rewrite (nth_map_seq _ 0 w k) in I by exact L. destruct I as [<-|[]]. split; [intros x Q; discriminate|].
      cbn [atom_reads]. unfold lsp_reads. destruct (proot p) as [s|]; [|intros y []]. intros y [<-|[]].
      apply in_map_iff. exists (plo p + (0 + k)). split; [reflexivity|]. apply in_seq. lia.
    + rewrite nth_overflow in I by (rewrite map_length, seq_length; exact L). destruct I.
  - intros p w ops f _ P k a I. cbn [S_Slice.bits] in I. apply Rep in I. now apply Opq.
  - intros w es F P k a I. cbn [S_Slice.bits reads] in *. pose proof P as P0. cbn [paths_ok] in P. rewrite all_in in P. rewrite Forall_forall in F.
    eapply Cat; [|exact I]. intros l k' a' J. apply in_rev in J. apply in_map_iff in J. destruct J as (e & <- & J). intros I'.
    destruct (F e J (P e J) k' a' I') as [A1 A2]. split; [exact A1|]. intros y Y. apply in_flat_map. exists e. split; [exact J|now apply A2].
  - intros w [n|] e IH P k a I; cbn [S_Slice.bits reads] in *.
    + eapply Cat; [|exact I]. intros l k' a' J. apply repeat_spec in J. subst l. now apply IH.
    + apply Rep in I. now apply (Opq (ERepl w None e) P).
  - intros w prop si so fold e IH P k a I. cbn [S_Slice.bits] in I. cbn [reads].
    set (plain := if w <? ew e then repeat [AOpq (EConv w prop si so fold e)] w else bits e ++ repeat [if si && so then APad else AConst vz] (w - ew e)) in I.
    assert (Pl : In a (nth k plain []) -> (forall x, a = AOpq x -> paths_ok x) /\ incl (atom_reads a) (reads e)).
    { unfold plain. destruct (w <? ew e).
      - intros J. apply Rep in J. now apply (Opq (EConv w prop si so fold e) P).
      - intros J. destruct (Nat.lt_ge_cases k (length (bits e))) as [Lt|Ge].
        + rewrite app_nth1 in J by exact Lt. now apply (IH P k a).
        + rewrite app_nth2 in J by exact Ge.
          assert (Q : a = (if si && so then APad else AConst vz)).
          { destruct (Nat.lt_ge_cases (k - length (bits e)) (w - ew e)) as [L|L].
            - rewrite (nth_indep _ [] [if si && so then APad else AConst vz]) in J by (now rewrite repeat_length).
              rewrite nth_repeat in J. destruct J as [<-|[]]. reflexivity.
            - rewrite nth_overflow in J by (now rewrite repeat_length). destruct J. }
          subst a. destruct (si && so); (split; [intros x Q; discriminate|intros y []]). }
    destruct fold as [v|]; [|auto]. destruct (length v =? w); [now apply (Cst (reads e) v k)|auto].
  - intros w sm c l r m Ic Il Ir P k a I. cbn [S_Slice.bits] in I. destruct P as (P1 & P2 & P3).
    destruct ((ew l =? w) && (ew r =? w) && sm); [|apply Rep in I; now apply (Opq (ECond w sm c l r m))].
    unfold zip3 in I. cbn [reads].
    set (F := fun p : list (atom V) * list (atom V) => fst p ++ snd p ++ [AOpq c]) in I.
    destruct (Nat.lt_ge_cases k (length (map F (combine (bits l) (bits r))))) as [L|L]; [|rewrite nth_overflow in I by exact L; destruct I].
    rewrite map_length in L. rewrite (nth_indep _ [] (F ([], []))) in I by (now rewrite map_length). rewrite map_nth in I.
    rewrite combine_length in L.
    assert (Qc : nth k (combine (bits l) (bits r)) ([], []) = (nth k (bits l) [], nth k (bits r) [])).
    { clear -L. revert L. generalize (bits l) (bits r). induction k as [|k IHk]; intros [|x xs] [|y ys] L; cbn in *; try lia; auto.
      apply IHk. lia. }
    rewrite Qc in I. unfold F in I. cbn [fst snd] in I. rewrite !in_app_iff in I. destruct I as [I|[I|[<-|[]]]].
    + destruct (Il P2 k a I) as [A1 A2]. split; [exact A1|]. intros y Y. rewrite !in_app_iff. auto.
    + destruct (Ir P3 k a I) as [A1 A2]. split; [exact A1|]. intros y Y. rewrite !in_app_iff. auto.
    + split; [intros x Q; inversion Q; subst; exact P1|]. intros y Y. cbn in Y. rewrite !in_app_iff. auto.
  - intros w fold ops f _ P k a I. cbn [S_Slice.bits] in I. destruct fold as [v|]; [destruct (length v =? w)|].
    + apply (Cst (reads (EOther w (Some v) ops f)) v k a I).
    + apply Rep in I. now apply (Opq (EOther w (Some v) ops f) P).
    + apply Rep in I. now apply (Opq (EOther w None ops f) P).
Qed.
End F.
