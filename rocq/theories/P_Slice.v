(** Proofs about bit slicing. *)
From Coq Require Import Sorted.
From Verif Require Import Base M_Slice S_Slice.

Section P.
Variable V : Type.
Variable vz : V.
Notation expr := (expr V).
Notation slice := (slice V).

(** * Induction on expressions *)
Fixpoint expr_rect' (P : expr -> Prop)
  (fLsp : forall p w, P (ELsp p w))
  (fDyn : forall p w ops f, Forall P ops -> P (EDyn p w ops f))
  (fCat : forall w es, Forall P es -> P (EConcat w es))
  (fRep : forall w n e, P e -> P (ERepl w n e))
  (fCnv : forall w prop si so fold e, P e -> P (EConv w prop si so fold e))
  (fCnd : forall w s c l r m, P c -> P l -> P r -> P (ECond w s c l r m))
  (fOth : forall w fold ops f, Forall P ops -> P (EOther w fold ops f))
  (e : expr) : P e :=
  let rec := expr_rect' P fLsp fDyn fCat fRep fCnv fCnd fOth in
  let all := fix all (l : list expr) : Forall P l :=
    match l with [] => Forall_nil P | x :: r => Forall_cons x (rec x) (all r) end in
  match e with
  | ELsp p w => fLsp p w
  | EDyn p w ops f => fDyn p w ops f (all ops)
  | EConcat w es => fCat w es (all es)
  | ERepl w n x => fRep w n x (rec x)
  | EConv w prop si so fold x => fCnv w prop si so fold x (rec x)
  | ECond w s c l r m => fCnd w s c l r m (rec c) (rec l) (rec r)
  | EOther w fold ops f => fOth w fold ops f (all ops)
  end.

Lemma all_Forall (P : expr -> Prop) l :
  fold_right (fun x Q => P x /\ Q) True l <-> Forall P l.
Proof.
  induction l as [|x l IH]; cbn; split; intros H; auto.
  - constructor; tauto.
  - inversion H; subst. tauto.
Qed.

(** * Tilings *)
Lemma tiled_app : forall (a b : list slice) lo hi,
  tiled lo (a ++ b) hi <-> exists m, tiled lo a m /\ tiled m b hi.
Proof.
  induction a as [|s a IH]; intros b lo hi; cbn.
  - split; [intros H; exists lo; auto|intros (m & -> & H); auto].
  - rewrite IH. split.
    + intros (A & B & m & C & D). exists m. auto.
    + intros (m & (A & B & C) & D). eauto 6.
Qed.

Lemma tiled_le : forall (a : list slice) lo hi, tiled lo a hi -> lo <= hi.
Proof.
  induction a as [|s a IH]; intros lo hi H; cbn in H; [lia|].
  destruct H as (A & B & C). apply IH in C. lia.
Qed.

Lemma tiled_width (out : list slice) W : tiled 0 out W -> width out = W.
Proof.
  unfold width. destruct out as [|s out] using rev_ind; intros H.
  - cbn in *. auto.
  - rewrite rev_app_distr. cbn. apply tiled_app in H. destruct H as (m & _ & H). cbn in H. lia.
Qed.

Lemma tiled_one lo hi (ss : list (source V)) : lo < hi -> tiled lo [Slice lo hi ss] hi.
Proof. intros H. cbn. auto. Qed.

Lemma tiled_bounds : forall (a : list slice) lo hi s, tiled lo a hi -> In s a ->
  lo <= clo s /\ clo s < chi s /\ chi s <= hi.
Proof.
  induction a as [|t a IH]; intros lo hi s H I; [destruct I|]. cbn in H. destruct H as (A & B & C).
  pose proof (tiled_le _ _ _ C). destruct I as [->|I]; [lia|].
  specialize (IH _ _ _ C I). lia.
Qed.

Lemma tiled_end : forall (a : list slice) lo hi, tiled lo a hi -> lo = hi \/ boundary a hi.
Proof.
  induction a as [|t a IH]; intros lo hi H; cbn in H; [auto|]. destruct H as (A & B & C).
  right. destruct (IH _ _ C) as [<-|(s & I & E)].
  - exists t. split; [now left|reflexivity].
  - exists s. split; [now right|exact E].
Qed.

(** * Per-bit attribution of a tiling *)
Definition satoms (s : slice) (k : nat) := flat_map (atoms_of vz k) (srcs s).
Definition sprov (s : slice) : list (list (atom V)) :=
  map (satoms s) (seq (clo s) (chi s - clo s)).
Definition provs (sl : list slice) : list (list (atom V)) := flat_map sprov sl.

Lemma provs_app a b : provs (a ++ b) = provs a ++ provs b.
Proof. unfold provs. now rewrite flat_map_app. Qed.

Lemma sprov_length s : length (sprov s) = chi s - clo s.
Proof. unfold sprov. now rewrite map_length, seq_length. Qed.

Lemma provs_length : forall sl lo hi, tiled lo sl hi -> length (provs sl) = hi - lo.
Proof.
  induction sl as [|s sl IH]; intros lo hi H; cbn in *; [lia|]. destruct H as (A & B & C).
  rewrite app_length, sprov_length. fold (provs sl). rewrite (IH _ _ C).
  apply tiled_le in C. lia.
Qed.

Lemma nth_map_seq {A} (f : nat -> A) a n i d : i < n -> nth i (map f (seq a n)) d = f (a + i).
Proof.
  intros H. rewrite (nth_indep _ d (f 0)) by (rewrite map_length, seq_length; auto).
  rewrite map_nth. now rewrite seq_nth.
Qed.

Lemma attr_provs : forall sl lo hi k, tiled lo sl hi -> lo <= k < hi ->
  attr vz sl k = nth (k - lo) (provs sl) [].
Proof.
  induction sl as [|s sl IH]; intros lo hi k H K; cbn in H.
  - lia.
  - destruct H as (A & B & C). cbn [attr provs flat_map]. fold (provs sl).
    destruct (Nat.leb_spec (clo s) k), (Nat.ltb_spec k (chi s)); cbn [andb]; try lia.
    + rewrite app_nth1 by (rewrite sprov_length; lia).
      unfold sprov. rewrite nth_map_seq by lia. unfold satoms. do 2 f_equal. lia.
    + rewrite app_nth2 by (rewrite sprov_length; lia). rewrite sprov_length.
      rewrite (IH _ _ _ C) by lia. f_equal. lia.
Qed.

(** * Cut lists *)
Lemma in_insert x y l : In y (insert x l) <-> y = x \/ In y l.
Proof.
  induction l as [|z l IH]; cbn; [intuition|]. destruct (x <=? z); cbn; [intuition|].
  rewrite IH. intuition.
Qed.
Lemma in_sort y l : In y (sort l) <-> In y l.
Proof. induction l as [|x l IH]; cbn; [tauto|]. rewrite in_insert, IH. intuition. Qed.
Lemma sorted_insert x l : StronglySorted le l -> StronglySorted le (insert x l).
Proof.
  induction 1 as [|y l S IH F]; cbn; [repeat constructor|].
  destruct (Nat.leb_spec x y) as [L|L].
  - constructor; [constructor; auto|]. constructor; [exact L|].
    eapply Forall_impl; [|exact F]. intros z Hz. cbn in Hz. lia.
  - constructor; [exact IH|]. apply Forall_forall. intros z I. apply in_insert in I.
    destruct I as [->|I]; [lia|]. rewrite Forall_forall in F. now apply F.
Qed.
Lemma sorted_sort l : StronglySorted le (sort l).
Proof. induction l as [|x l IH]; cbn; [constructor|]. now apply sorted_insert. Qed.
Lemma in_uniq y : forall l, In y (uniq l) <-> In y l.
Proof.
  induction l as [|x l IH]; [cbn; tauto|]. cbn [uniq]. destruct l as [|z l]; [tauto|].
  destruct (Nat.eqb_spec x z) as [->|D].
  - rewrite IH. cbn. intuition.
  - cbn [In] in *. rewrite IH. tauto.
Qed.
Lemma sorted_uniq : forall l, StronglySorted le l -> StronglySorted lt (uniq l).
Proof.
  induction l as [|x l IH]; intros H; [constructor|]. inversion H as [|? ? S F]; subst.
  cbn [uniq]. destruct l as [|z l]; [repeat constructor|].
  destruct (Nat.eqb_spec x z) as [->|D]; [apply IH, S|].
  constructor; [apply IH, S|]. apply Forall_forall. intros y I. apply (in_uniq y (z :: l)) in I.
  inversion F as [|? ? L F2]; subst. inversion S as [|? ? S2 F3]; subst.
  destruct I as [<-|I]; [lia|]. rewrite Forall_forall in F3. specialize (F3 y I). lia.
Qed.
Lemma in_merge y a b : In y (mergeCuts a b) <-> In y a \/ In y b.
Proof. unfold mergeCuts. rewrite in_uniq, in_sort, in_app_iff. tauto. Qed.
Lemma sorted_merge a b : StronglySorted lt (mergeCuts a b).
Proof. apply sorted_uniq, sorted_sort. Qed.

Lemma pairs_cons a b r : pairs (a :: b :: r) = (a, b) :: pairs (b :: r).
Proof. reflexivity. Qed.

Lemma pairs_gap : forall cs a b, StronglySorted lt cs -> In (a, b) (pairs cs) ->
  a < b /\ In a cs /\ In b cs /\ forall c, In c cs -> c <= a \/ b <= c.
Proof.
  induction cs as [|x cs IH]; intros a b S I; [destruct I|].
  destruct cs as [|y cs]; [destruct I|]. rewrite pairs_cons in I.
  inversion S as [|? ? S2 F]; subst. pose proof F as F0. inversion F as [|? ? L F2]; subst.
  destruct I as [E|I].
  - inversion E; subst. split; [exact L|]. split; [now left|]. split; [right; now left|].
    intros c [<-|[<-|J]]; [lia|lia|].
    inversion S2 as [|? ? S3 F3]; subst. rewrite Forall_forall in F3. specialize (F3 c J). lia.
  - destruct (IH a b S2 I) as (A & B & C & D). split; [exact A|]. split; [now right|].
    split; [now right|]. intros c [<-|J]; [|apply D; exact J].
    rewrite Forall_forall in F0. specialize (F0 a B). lia.
Qed.

(** The consecutive pairs of a sorted cut list cover it. *)
Lemma grid : forall cs lo hi (F : nat * nat -> slice) base,
  StronglySorted lt cs -> hd_error cs = Some lo -> In hi cs -> (forall c, In c cs -> c <= hi) ->
  (forall a b, In (a, b) (pairs cs) -> clo (F (a, b)) = base + a /\ chi (F (a, b)) = base + b) ->
  tiled (base + lo) (map F (pairs cs)) (base + hi).
Proof.
  induction cs as [|x cs IH]; intros lo hi F base S H I M HF; [discriminate|].
  cbn in H. inversion H; subst x; clear H. destruct cs as [|y cs].
  - cbn. destruct I as [->|[]]. reflexivity.
  - rewrite pairs_cons in *. cbn [map tiled]. inversion S as [|? ? S2 F2]; subst.
    inversion F2; subst. destruct (HF lo y (or_introl eq_refl)) as [A B]. rewrite A, B.
    split; [reflexivity|]. split; [lia|]. apply IH; auto.
    + destruct I as [->|I]; [|exact I]. specialize (M y). cbn in M. lia.
    + intros c J. apply M. now right.
    + intros a b J. apply HF. now right.
Qed.

Lemma grid_provs : forall cs lo hi (F : nat * nat -> slice) base G,
  StronglySorted lt cs -> hd_error cs = Some lo -> In hi cs -> (forall c, In c cs -> c <= hi) ->
  (forall a b, In (a, b) (pairs cs) -> clo (F (a, b)) = base + a /\ chi (F (a, b)) = base + b) ->
  (forall a b k, In (a, b) (pairs cs) -> a <= k < b -> satoms (F (a, b)) (base + k) = G k) ->
  provs (map F (pairs cs)) = map G (seq lo (hi - lo)).
Proof.
  induction cs as [|x cs IH]; intros lo hi F base G S H I M HF HG; [discriminate|].
  cbn in H. inversion H; subst x; clear H. destruct cs as [|y cs].
  - destruct I as [->|[]]. cbn. now rewrite Nat.sub_diag.
  - rewrite pairs_cons in *. cbn [map provs flat_map]. inversion S as [|? ? S2 F2]; subst.
    inversion F2; subst. destruct (HF lo y (or_introl eq_refl)) as [A B].
    assert (Hy : In hi (y :: cs)).
    { destruct I as [->|I]; [|exact I]. specialize (M y). cbn in M. lia. }
    assert (My : forall c, In c (y :: cs) -> c <= hi) by (intros c J; apply M; now right).
    pose proof (My y (or_introl eq_refl)).
    fold (provs (map F (pairs (y :: cs)))).
    rewrite (IH y hi F base G S2 eq_refl Hy My).
    + replace (hi - lo) with ((y - lo) + (hi - y)) by lia. rewrite seq_app, map_app.
      f_equal; [|f_equal; f_equal; lia].
      unfold sprov. rewrite A, B. replace (base + y - (base + lo)) with (y - lo) by lia.
      rewrite <- (map_id (seq lo (y - lo))) at 1.
      apply nth_ext with (d := []) (d' := []); rewrite !map_length, !seq_length; [reflexivity|].
      intros n Hn. rewrite !nth_map_seq by lia. rewrite map_id, nth_map_seq by lia.
      rewrite <- Nat.add_assoc. apply (HG lo y); [now left|lia].
    + intros a b J. apply HF. now right.
    + intros a b k J. apply HG. now right.
Qed.

(** * Looking up a bit *)
Lemma find_same : forall (l : list slice) lo hi a k, tiled lo l hi -> lo <= a <= k ->
  (forall s, In s l -> chi s <= a \/ k < chi s) -> findSlice l k = findSlice l a.
Proof.
  induction l as [|s l IH]; intros lo hi a k T L H; [reflexivity|]. cbn in T.
  destruct T as (A & B & C). unfold findSlice. cbn [find].
  destruct (H s (or_introl eq_refl)) as [Q|Q].
  - replace ((clo s <=? k) && (k <? chi s)) with false by lia.
    replace ((clo s <=? a) && (a <? chi s)) with false by lia.
    apply (IH _ _ a k C); [lia|]. intros t I. apply H. now right.
  - replace ((clo s <=? k) && (k <? chi s)) with true by lia.
    destruct (Nat.ltb_spec a (chi s)); [|lia].
    replace ((clo s <=? a)) with true by lia. reflexivity.
Qed.

Lemma find_some_tiled : forall (l : list slice) lo hi k, tiled lo l hi -> lo <= k < hi ->
  exists s, findSlice l k = Some s /\ In s l /\ clo s <= k < chi s.
Proof.
  induction l as [|s l IH]; intros lo hi k T L; cbn in T; [lia|].
  destruct T as (A & B & C). unfold findSlice. cbn [find].
  destruct ((clo s <=? k) && (k <? chi s)) eqn:E.
  - exists s. split; [reflexivity|]. split; [now left|]. lia.
  - destruct (IH _ _ k C) as (t & F & I & K); [lia|]. exists t. split; [exact F|].
    split; [now right|exact K].
Qed.

Lemma attr_find : forall (l : list slice) k,
  attr vz l k = flat_map (atoms_of vz k) (srcs_at l k).
Proof.
  intros l k. unfold srcs_at, findSlice. induction l as [|s l IH]; [reflexivity|].
  cbn [attr find]. destruct ((clo s <=? k) && (k <? chi s)); [reflexivity|exact IH].
Qed.

(** * Cuts of two tilings of the same width *)
Lemma merge_facts (l r : list slice) w : tiled 0 l w -> tiled 0 r w ->
  let cs := mergeCuts (collectCuts l) (collectCuts r) in
  StronglySorted lt cs /\ hd_error cs = Some 0 /\ In w cs /\ (forall c, In c cs -> c <= w) /\
  (forall c, In c cs <-> c = 0 \/ boundary l c \/ boundary r c).
Proof.
  intros Tl Tr cs.
  assert (IC : forall c, In c cs <-> c = 0 \/ boundary l c \/ boundary r c).
  { intros c. unfold cs. rewrite in_merge. unfold collectCuts, boundary. cbn [In].
    rewrite !in_map_iff. split.
    - intros [[<-|(s & E & I)]|[<-|(s & E & I)]]; eauto 6.
    - intros [->|[(s & I & E)|(s & I & E)]]; eauto. }
  assert (S : StronglySorted lt cs) by apply sorted_merge.
  split; [exact S|]. split; [|split; [|split; [|exact IC]]].
  - assert (I0 : In 0 cs) by (apply IC; auto).
    destruct cs as [|x cs]; [destruct I0|]. cbn. f_equal. inversion S as [|? ? S2 F]; subst.
    destruct I0 as [E|I0]; [auto|]. rewrite Forall_forall in F. specialize (F 0 I0). lia.
  - apply IC. destruct (tiled_end _ _ _ Tl) as [<-|B]; auto.
  - intros c I. apply IC in I. destruct I as [->|[(s & I & <-)|(s & I & <-)]]; [lia| |].
    + pose proof (tiled_bounds _ _ _ _ Tl I). lia.
    + pose proof (tiled_bounds _ _ _ _ Tr I). lia.
Qed.

Lemma seg_find (l r : list slice) w a b k : tiled 0 l w -> tiled 0 r w ->
  In (a, b) (pairs (mergeCuts (collectCuts l) (collectCuts r))) -> a <= k < b ->
  srcs_at l k = srcs_at l a /\ srcs_at r k = srcs_at r a.
Proof.
  intros Tl Tr I K. destruct (merge_facts l r w Tl Tr) as (S & _ & _ & _ & IC).
  destruct (pairs_gap _ _ _ S I) as (L & _ & _ & G).
  unfold srcs_at. split.
  - rewrite (find_same l 0 w a k Tl); [reflexivity|lia|]. intros s J.
    destruct (G (chi s)); [apply IC; right; left; exists s; auto|lia|lia].
  - rewrite (find_same r 0 w a k Tr); [reflexivity|lia|]. intros s J.
    destruct (G (chi s)); [apply IC; right; right; exists s; auto|lia|lia].
Qed.

Lemma unify_tiled base (l r : list slice) w c : tiled 0 l w -> tiled 0 r w ->
  tiled base (unify base l r c) (base + w).
Proof.
  intros Tl Tr. destruct (merge_facts l r w Tl Tr) as (S & H & I & M & _).
  rewrite <- (Nat.add_0_r base) at 1. apply grid; auto.
Qed.

Lemma translate_atoms base k s : atoms_of vz (base + k) (translate base s) = atoms_of vz k s.
Proof.
  destruct s; cbn; auto.
  - replace (base + k - (lo + base)) with (k - lo) by lia. reflexivity.
  - replace (base + k - (lo + base)) with (k - lo) by lia. reflexivity.
Qed.

Lemma flat_map_map' {A B C} (f : B -> list C) (g : A -> B) l :
  flat_map f (map g l) = flat_map (fun x => f (g x)) l.
Proof. induction l as [|x l IH]; cbn; [reflexivity|]. now rewrite IH. Qed.

Lemma map_nth_self {A} (l : list A) d : map (fun k => nth k l d) (seq 0 (length l)) = l.
Proof.
  apply nth_ext with (d := d) (d' := d); rewrite map_length, seq_length; [reflexivity|].
  intros n H. now rewrite nth_map_seq.
Qed.

Lemma nth_zip {A} (c : A) (l r : list (list A)) k : length l = length r -> k < length l ->
  nth k (zip3 c l r) [] = nth k l [] ++ nth k r [] ++ [c].
Proof.
  intros E K. unfold zip3.
  rewrite (nth_indep _ [] (let p := ([], []) in fst p ++ snd p ++ [c]))
    by (rewrite map_length, combine_length; lia).
  rewrite (map_nth (fun p => fst p ++ snd p ++ [c])), combine_nth by exact E. reflexivity.
Qed.

Lemma unify_provs base (l r : list slice) w c : tiled 0 l w -> tiled 0 r w ->
  provs (unify base l r c) = zip3 (AOpq c) (provs l) (provs r).
Proof.
  intros Tl Tr. destruct (merge_facts l r w Tl Tr) as (S & H & I & M & _).
  unfold unify.
  rewrite (grid_provs _ 0 w _ base (fun k => attr vz l k ++ attr vz r k ++ [AOpq c])); auto.
  - rewrite Nat.sub_0_r.
    apply nth_ext with (d := []) (d' := []).
    + unfold zip3. rewrite !map_length, seq_length, combine_length.
      rewrite (provs_length _ _ _ Tl), (provs_length _ _ _ Tr). lia.
    + intros n Hn. rewrite map_length, seq_length in Hn. rewrite nth_map_seq by lia. cbn [plus].
      rewrite (attr_provs l 0 w) by (auto; lia). rewrite (attr_provs r 0 w) by (auto; lia).
      rewrite Nat.sub_0_r. rewrite nth_zip; [reflexivity| |];
        rewrite (provs_length _ _ _ Tl); try rewrite (provs_length _ _ _ Tr); lia.
  - intros a b k J K. unfold satoms. cbn [srcs fst snd].
    destruct (seg_find l r w a b k Tl Tr J K) as [El Er].
    rewrite !attr_find, El, Er, !flat_map_app, !flat_map_map'. f_equal; [|f_equal].
    + apply flat_map_ext. intros s. apply translate_atoms.
    + apply flat_map_ext. intros s. apply translate_atoms.
Qed.

(** * pushLsp *)
Lemma in_upper x l c : StronglySorted lt l -> (In c (upper_from x l) <-> In c l /\ x < c).
Proof.
  induction 1 as [|y l S IH F]; cbn [upper_from lower_until In]; [tauto|]. rewrite Forall_forall in F.
  destruct (Nat.leb_spec y x).
  - rewrite IH. split; [tauto|]. intros [[->|A] B]; [lia|auto].
  - cbn. split; [|tauto]. intros [->|A]; [auto|]. specialize (F c A). split; [auto|lia].
Qed.
Lemma sorted_upper x l : StronglySorted lt l -> StronglySorted lt (upper_from x l).
Proof. induction 1 as [|y l S IH F]; cbn; [constructor|]. destruct (y <=? x); [auto|now constructor]. Qed.
Lemma in_lower x l c : StronglySorted lt l -> (In c (lower_until x l) <-> In c l /\ c < x).
Proof.
  induction 1 as [|y l S IH F]; cbn [upper_from lower_until In]; [tauto|]. rewrite Forall_forall in F.
  destruct (Nat.ltb_spec y x).
  - cbn [In]. rewrite IH. split; [intros [<-|[A B]]; auto|tauto].
  - split; [intros []|]. intros [[->|A] B]; [lia|]. specialize (F c A). lia.
Qed.
Lemma sorted_lower x l : StronglySorted lt l -> StronglySorted lt (lower_until x l).
Proof.
  intros S0. pose proof S0 as S1. induction S0 as [|y l S IH F]; cbn [lower_until]; [constructor|].
  destruct (y <? x); [|constructor]. constructor; [auto|]. rewrite Forall_forall in *.
  intros z I. apply in_lower in I; [|exact S]. apply F. tauto.
Qed.

Lemma emit_spec lo p : forall cs prev, plo p <= prev -> prev <= phi p ->
  StronglySorted lt cs -> (forall c, In c cs -> prev < c < phi p + 1) ->
  tiled (lo + (prev - plo p)) (emit lo p prev cs : list slice) (lo + (phi p + 1 - plo p)) /\
  provs (emit lo p prev cs) =
    map (fun i => [ABit (proot p) (plo p + i)]) (seq (prev - plo p) (phi p + 1 - prev)) /\
  (forall k, boundary (emit lo p prev cs : list slice) k <->
     k = lo + (phi p + 1 - plo p) \/ exists c, In c cs /\ k = lo + (c - plo p)) /\
  (forall s, In s (emit lo p prev cs : list slice) ->
     srcs s = [SLsp p lo (lo + (phi p + 1 - plo p))]).
Proof.
  assert (One : forall a b (ss := [SLsp p lo (lo + (phi p + 1 - plo p))] : list (source V)),
     plo p <= a -> a < b ->
     sprov (Slice (lo + (a - plo p)) (lo + (b - plo p)) ss) =
     map (fun i => [ABit (proot p) (plo p + i)]) (seq (a - plo p) (b - a))).
  { intros a b ss A B. unfold sprov. cbn [clo chi].
    replace (lo + (b - plo p) - (lo + (a - plo p))) with (b - a) by lia.
    apply nth_ext with (d := []) (d' := []); rewrite !map_length, !seq_length; [reflexivity|].
    intros n Hn. rewrite !nth_map_seq by lia. unfold satoms. cbn. do 3 f_equal. lia. }
  induction cs as [|c cs IH]; intros prev L1 L2 S H; cbn [emit].
  - split; [cbn; lia|]. split; [|split].
    + cbn [provs flat_map]. rewrite app_nil_r. apply One; lia.
    + intros k. unfold boundary. cbn. split.
      * intros (s & [<-|[]] & <-). auto.
      * intros [->|(c & [] & _)]. eexists. split; [now left|reflexivity].
    + intros s [<-|[]]. reflexivity.
  - inversion S as [|? ? S2 F]; subst. pose proof (H c (or_introl eq_refl)) as Hc.
    destruct (IH c) as (T & P & B & Q); [lia|lia|exact S2| |].
    { intros d I. rewrite Forall_forall in F. specialize (F d I). specialize (H d (or_intror I)). lia. }
    split; [|split; [|split]].
    + cbn [tiled clo chi]. split; [reflexivity|]. split; [lia|exact T].
    + cbn [provs flat_map]. fold (provs (emit lo p c cs)). rewrite P.
      rewrite One by lia. replace (phi p + 1 - prev) with ((c - prev) + (phi p + 1 - c)) by lia.
      rewrite seq_app, map_app. do 3 f_equal. lia.
    + intros k. unfold boundary in *. cbn [In]. split.
      * intros (s & [<-|I] & E).
        -- right. exists c. cbn [chi] in E. auto.
        -- destruct (proj1 (B k)) as [A|(d & I2 & A)]; eauto.
      * intros [A|(d & [<-|I] & A)].
        -- destruct (proj2 (B k)) as (s & I & E); eauto.
        -- eexists. split; [now left|]. cbn. auto.
        -- destruct (proj2 (B k)) as (s & I2 & E); eauto.
    + intros s [<-|I]; [reflexivity|auto].
Qed.

(** The hints that split [p]. *)
Definition splits (h : hints) (p : path) : list nat :=
  match proot p with
  | Some s => match h s with
              | Some hs => lower_until (phi p + 1) (upper_from (plo p) hs)
              | None => []
              end
  | None => []
  end.

Lemma pushLsp_eq h out p w : pushLsp h out p w =
  if w =? 0 then out else
  match splits h p with
  | [] => out ++ [Slice (width out) (width out + w) [SLsp p (width out) (width out + w)]]
  | cs => out ++ emit (V := V) (width out) p (plo p) cs
  end.
Proof.
  unfold pushLsp, splits. destruct (w =? 0); [reflexivity|].
  destruct (proot p) as [s|]; [|reflexivity]. destruct (h s) as [hs|]; [|reflexivity].
  destruct (lower_until _ _); reflexivity.
Qed.

Lemma splits_spec h p : sorted_hints h ->
  StronglySorted lt (splits h p) /\
  forall c, In c (splits h p) <->
    plo p < c < phi p + 1 /\ exists s l, proot p = Some s /\ h s = Some l /\ In c l.
Proof.
  intros Sh. unfold splits. destruct (proot p) as [s|].
  2:{ split; [constructor|]. intros c. split; [intros []|intros (_ & s & l & E & _); discriminate]. }
  destruct (h s) as [hs|] eqn:E.
  2:{ split; [constructor|]. intros c. split; [intros []|].
      intros (_ & s' & l & E1 & E2 & _). congruence. }
  pose proof (Sh s hs E) as S. split; [apply sorted_lower, sorted_upper, S|].
  intros c. rewrite in_lower by now apply sorted_upper. rewrite in_upper by exact S. split.
  - intros [[A B] C]. split; [lia|]. exists s, hs. auto.
  - intros (A & s' & l & E1 & E2 & I). inversion E1; subst s'.
    assert (l = hs) by congruence. subst l. split; [split; [exact I|lia]|lia].
Qed.

(** * The main invariant *)

(** Sources are anchored at or below their slice, have a root unless [free], and
    constants have the width of their range. *)
Definition good_src (free : Prop) (s : slice) (x : source V) : Prop :=
  match x with
  | SLsp p lo hi => lo <= clo s /\ (proot p <> None \/ free)
  | SConst v lo hi _ => lo <= clo s /\ chi s <= hi /\ length v = hi - lo
  | SPort _ _ _ => False
  | _ => True
  end.
Definition good (free : Prop) (sl : list slice) : Prop :=
  forall s, In s sl -> forall x, In x (srcs s) -> good_src free s x.

Lemma good_app free a b : good free (a ++ b) <-> good free a /\ good free b.
Proof.
  unfold good. split.
  - intros H. split; intros s I; apply H, in_or_app; auto.
  - intros [A B] s I. apply in_app_or in I. destruct I; auto.
Qed.

Definition out_spec (D : path -> nat -> Prop) (out new : list slice) (W w : nat)
    (bs : list (list (atom V))) : Prop :=
  tiled W new (W + w) /\ ((forall p k, ~ D p k) -> provs new = bs) /\
  good (exists p k, D p k) new.

Lemma opaque_spec D e W out : tiled 0 out W ->
  exists new, pushOpaque out e = out ++ new /\ out_spec D out new W (ew e) (repeat [AOpq e] (ew e)).
Proof.
  intros T. unfold pushOpaque. rewrite (tiled_width _ _ T).
  destruct (Nat.eqb_spec (ew e) 0) as [E|E].
  - exists []. rewrite app_nil_r, E. split; [reflexivity|]. split; [cbn; lia|].
    split; [reflexivity|]. intros s [].
  - eexists. split; [reflexivity|]. split; [apply tiled_one; lia|]. split.
    + intros _. cbn [provs flat_map]. rewrite app_nil_r. unfold sprov. cbn [clo chi].
      replace (W + ew e - W) with (ew e) by lia.
      apply nth_ext with (d := []) (d' := []); rewrite ?map_length, ?seq_length, ?repeat_length;
        [reflexivity|].
      intros n Hn. rewrite nth_map_seq by lia.
      rewrite (nth_indep (repeat _ _) [] [AOpq e]) by (rewrite repeat_length; lia).
      now rewrite nth_repeat.
    + intros s [<-|[]] x [<-|[]]. exact I.
Qed.

Lemma const_spec D e v W out : length v = ew e -> tiled 0 out W ->
  exists new, pushConstant out v e = out ++ new /\
    out_spec D out new W (ew e) (map (fun b => [AConst b]) v).
Proof.
  intros L T. unfold pushConstant. rewrite (tiled_width _ _ T).
  destruct (Nat.eqb_spec (ew e) 0) as [E|E].
  - exists []. rewrite app_nil_r, E. split; [reflexivity|]. split; [cbn; lia|].
    split; [|intros s []]. destruct v; [reflexivity|cbn in L; lia].
  - eexists. split; [reflexivity|]. split; [apply tiled_one; lia|]. split.
    + intros _. cbn [provs flat_map]. rewrite app_nil_r. unfold sprov. cbn [clo chi].
      replace (W + ew e - W) with (ew e) by lia.
      apply nth_ext with (d := []) (d' := []); rewrite !map_length, ?seq_length; [auto|].
      intros n Hn. rewrite nth_map_seq by lia. unfold satoms. cbn.
      replace (W + n - W) with n by lia.
      rewrite (nth_indep (map _ v) [] [AConst vz]) by (rewrite map_length; lia).
      now rewrite (map_nth (fun b => [AConst b])).
    + intros s [<-|[]] x [<-|[]]. cbn. split; [lia|]. split; [lia|]. lia.
Qed.

Lemma lsp_spec D h p w W out : sorted_hints h -> plo p <= phi p ->
  (proot p <> None \/ D p w) ->
  (w = phi p + 1 - plo p \/ splits h p = []) -> tiled 0 out W ->
  exists new, pushLsp h out p w = out ++ new /\
    out_spec D out new W w (map (fun i => [ABit (proot p) (plo p + i)]) (seq 0 w)).
Proof.
  intros Sh Lp R Hw T. rewrite pushLsp_eq, (tiled_width _ _ T).
  assert (R' : proot p <> None \/ exists p k, D p k) by (destruct R; eauto).
  destruct (Nat.eqb_spec w 0) as [E|E].
  { exists []. rewrite app_nil_r, E. split; [reflexivity|]. split; [cbn; lia|].
    split; [reflexivity|]. intros s []. }
  destruct (splits_spec h p Sh) as [S SI].
  destruct (splits h p) as [|c cs].
  - eexists. split; [reflexivity|]. split; [apply tiled_one; lia|]. split.
    + intros _. cbn [provs flat_map]. rewrite app_nil_r. unfold sprov. cbn [clo chi].
      replace (W + w - W) with w by lia.
      apply nth_ext with (d := []) (d' := []); rewrite !map_length, !seq_length; [reflexivity|].
      intros n Hn. rewrite !nth_map_seq by lia. unfold satoms. cbn. do 3 f_equal. lia.
    + intros s [<-|[]] x [<-|[]]. cbn. auto.
  - destruct Hw as [->|Hw]; [|discriminate].
    destruct (emit_spec W p (c :: cs) (plo p)) as (T1 & P1 & _ & Q1); [lia|lia|exact S| |].
    { intros d I. apply SI in I. lia. }
    rewrite Nat.sub_diag, Nat.add_0_r in T1. rewrite Nat.sub_diag in P1.
    eexists. split; [reflexivity|]. split; [exact T1|]. split; [auto|].
    intros s I x J. rewrite (Q1 s I) in J. destruct J as [<-|[]]. cbn.
    pose proof (tiled_bounds _ _ _ _ T1 I). split; [lia|exact R'].
Qed.

Lemma spec_seq D out new1 new2 W w1 w2 b1 b2 :
  out_spec D out new1 W w1 b1 -> out_spec D (out ++ new1) new2 (W + w1) w2 b2 ->
  out_spec D out (new1 ++ new2) W (w1 + w2) (b1 ++ b2).
Proof.
  intros (T1 & P1 & G1) (T2 & P2 & G2). split; [|split].
  - apply tiled_app. exists (W + w1). rewrite Nat.add_assoc. auto.
  - intros N. rewrite provs_app, P1, P2; auto.
  - apply good_app. auto.
Qed.

Lemma tiled_out (out new : list slice) W w :
  tiled 0 out W -> tiled W new (W + w) -> tiled 0 (out ++ new) (W + w).
Proof. intros A B. apply tiled_app. eauto. Qed.

Definition builds (D : path -> nat -> Prop) (h : hints) (e : expr) : Prop :=
  typed D e -> forall out W, tiled 0 out W ->
  exists new, build vz h e out = out ++ new /\ out_spec D out new W (ew e) (bits vz e).

Lemma build_spec (D : path -> nat -> Prop) h : sorted_hints h ->
  (forall p w, D p w -> splits h p = []) -> forall e, builds D h e.
Proof.
  intros Sh HD. apply expr_rect'; unfold builds.
  - (* static LSP *)
    intros p w (A & B & C) out W T. cbn [build bits ew]. apply lsp_spec; auto.
  - (* dynamic select *)
    intros p w ops f _ (A & B) out W T. cbn [build ew].
    destruct (lsp_spec D h p w W out) as (new & E & T1 & P1 & G1); auto.
    { right. now apply (HD p w). }
    exists new. split; [exact E|]. split; [exact T1|]. split; [|exact G1].
    intros N. now apply N in B.
  - (* concatenation *)
    intros w es IH (-> & H) out W T. apply all_Forall in H. cbn [build bits ew].
    revert out W T. induction es as [|e es IHes]; intros out W T.
    + exists []. rewrite app_nil_r. split; [reflexivity|]. split; [cbn; lia|]. split; [reflexivity|].
      intros s [].
    + inversion IH as [|? ? He IH']; subst. inversion H as [|? ? Te H']; subst.
      destruct (IHes IH' H' out W T) as (n1 & E1 & S1).
      destruct (He Te (out ++ n1) (W + list_sum (map ew es))) as (n2 & E2 & S2).
      { apply tiled_out; [exact T|apply S1]. }
      exists (n1 ++ n2). cbn [fold_right]. rewrite E1, E2, app_assoc. split; [reflexivity|].
      cbn [map rev list_sum]. rewrite concat_app. cbn [concat]. rewrite app_nil_r.
      change (list_sum (ew e :: map ew es)) with (ew e + list_sum (map ew es)).
      rewrite (Nat.add_comm (ew e)). apply spec_seq; auto.
  - (* replication *)
    intros w [n|] e IH H out W T; cbn [build bits ew].
    2:{ apply (opaque_spec D (ERepl w None e)). exact T. }
    destruct H as (-> & Te). specialize (IH Te).
    assert (X : exists new, Nat.iter (Z.to_nat n) (build vz h e) out = out ++ new /\
       out_spec D out new W (Z.to_nat n * ew e) (concat (repeat (bits vz e) (Z.to_nat n)))).
    { induction (Z.to_nat n) as [|k IHk]; cbn [Nat.iter nat_rect].
      - exists []. rewrite app_nil_r. split; [reflexivity|]. split; [cbn; lia|].
        split; [reflexivity|]. intros s [].
      - destruct IHk as (n1 & E1 & S1).
        destruct (IH (out ++ n1) (W + k * ew e)) as (n2 & E2 & S2).
        { apply tiled_out; [exact T|apply S1]. }
        exists (n1 ++ n2). unfold Nat.iter in E1. rewrite E1, E2, app_assoc.
        split; [reflexivity|].
        replace (repeat (bits vz e) (S k)) with (repeat (bits vz e) k ++ [bits vz e])
          by (change (repeat (bits vz e) (S k)) with (bits vz e :: repeat (bits vz e) k);
              symmetry; apply repeat_cons).
        rewrite concat_app. cbn [concat]. rewrite app_nil_r.
        replace (S k * ew e) with (k * ew e + ew e) by lia. apply spec_seq; auto. }
    exact X.
  - (* conversion *)
    intros w prop si so fold e IH H out W T. cbn [build bits ew]. cbv zeta.
    assert (F : folded fold w = match fold with
                                | Some v => if length v =? w then Some v else None
                                | None => None end) by reflexivity.
    assert (Plain : exists new,
      (if w =? ew e then build vz h e out
       else if ew e <? w then
         build vz h e out ++
         [Slice (width (build vz h e out)) (width (build vz h e out) + (w - ew e))
            [if si && so then SPad true
             else SConst (repeat vz (w - ew e)) (width (build vz h e out))
                    (width (build vz h e out) + (w - ew e)) None]]
       else pushOpaque out (EConv w prop si so fold e)) = out ++ new /\
      out_spec D out new W w
        (if w <? ew e then repeat [AOpq (EConv w prop si so fold e)] w
         else bits vz e ++ repeat [if si && so then APad else AConst vz] (w - ew e))).
    { destruct (Nat.eqb_spec w (ew e)) as [->|N].
      - destruct H as [H|H]; [lia|]. rewrite Nat.ltb_irrefl, Nat.sub_diag. cbn [repeat].
        rewrite app_nil_r. now apply IH.
      - destruct (Nat.ltb_spec (ew e) w) as [L|L].
        + destruct H as [H|H]; [lia|]. replace (w <? ew e) with false by lia.
          destruct (IH H out W T) as (n1 & E1 & S1). rewrite E1.
          assert (T1 : tiled 0 (out ++ n1) (W + ew e)) by (apply tiled_out; [exact T|apply S1]).
          rewrite (tiled_width _ _ T1). eexists. split; [now rewrite <- app_assoc|].
          remember (w - ew e) as d eqn:Ed. replace w with (ew e + d) by lia.
          apply spec_seq; [exact S1|].
          split; [|split].
          * apply tiled_one. lia.
          * intros _. cbn [provs flat_map]. rewrite app_nil_r. unfold sprov. cbn [clo chi].
            replace (W + ew e + d - (W + ew e)) with d by lia.
            apply nth_ext with (d := []) (d' := []); rewrite ?map_length, ?seq_length, ?repeat_length;
              [reflexivity|].
            intros n Hn. rewrite nth_map_seq by lia.
            rewrite (nth_indep (repeat _ d) [] [if si && so then APad else AConst vz])
              by (rewrite repeat_length; lia).
            rewrite nth_repeat. unfold satoms. cbn [srcs flat_map]. rewrite app_nil_r.
            destruct (si && so); cbn; [reflexivity|]. now rewrite nth_repeat.
          * intros s [<-|[]] x [<-|[]]. destruct (si && so); cbn; [exact I|].
            rewrite repeat_length. lia.
        + replace (w <? ew e) with true by lia.
          apply (opaque_spec D (EConv w prop si so fold e)). exact T. }
    rewrite F. destruct fold as [v|]; [|exact Plain].
    destruct (Nat.eqb_spec (length v) w) as [L|L]; [|exact Plain].
    apply (const_spec D (EConv w prop si so (Some v) e)); auto.
  - (* conditional *)
    intros w simple c l r m _ IHl IHr H out W T. cbn [build bits ew].
    pose proof (opaque_spec D (ECond w simple c l r m) W out T) as Opq. cbn [ew] in Opq.
    destruct (Nat.eqb_spec (ew l) (ew r)) as [E1|E1], (Nat.eqb_spec (ew l) w) as [E2|E2],
      (Nat.eqb_spec (ew r) w) as [E3|E3], simple; cbn [negb orb andb]; try exact Opq; try lia.
    cbn [typed] in H. destruct (H E2 E3) as [Hl Hr].
    destruct (IHl Hl [] 0 eq_refl) as (nl & El & Tl & Pl & Gl).
    destruct (IHr Hr [] 0 eq_refl) as (nr & Er & Tr & Pr & Gr).
    cbn [app] in El, Er. rewrite El, Er. cbn [plus] in Tl, Tr.
    rewrite (tiled_width _ _ Tl), (tiled_width _ _ Tr), E1, Nat.eqb_refl. cbn [negb].
    rewrite (tiled_width _ _ T). eexists. split; [reflexivity|].
    rewrite E2 in Tl. rewrite E3 in Tr. split; [|split].
    + apply unify_tiled; auto.
    + intros N. rewrite (unify_provs W nl nr w c Tl Tr), Pl, Pr by exact N. reflexivity.
    + destruct (merge_facts nl nr w Tl Tr) as (S & _ & _ & M & _).
      intros s I x J. unfold unify in I. apply in_map_iff in I. destruct I as ([a b] & <- & I).
      cbn [srcs fst snd clo chi] in *.
      destruct (pairs_gap _ _ _ S I) as (Lab & _ & Ib & Gap). pose proof (M b Ib) as Mb.
      assert (Arm : forall n, tiled 0 n w -> good (exists p k, D p k) n ->
                (forall s, In s n -> In (chi s) (mergeCuts (collectCuts nl) (collectCuts nr))) ->
                forall y, In y (srcs_at n a) ->
                good_src (exists p k, D p k) (Slice (W + a) (W + b) []) (translate W y)).
      { intros n Tn Gn Cn y Iy. unfold srcs_at in Iy.
        destruct (find_some_tiled n 0 w a Tn) as (t & Ft & It & Kt); [lia|]. rewrite Ft in Iy.
        specialize (Gn t It y Iy). pose proof (Gap _ (Cn t It)).
        destruct y; cbn in *; auto; [|lia]. split; [lia|tauto]. }
      apply in_app_or in J. destruct J as [J|J]; [|apply in_app_or in J; destruct J as [J|J]].
      * apply in_map_iff in J. destruct J as (y & <- & J).
        apply (Arm nl Tl Gl); [|exact J]. intros s Is. apply in_merge. left. right. now apply in_map.
      * apply in_map_iff in J. destruct J as (y & <- & J).
        apply (Arm nr Tr Gr); [|exact J]. intros s Is. apply in_merge. right. right. now apply in_map.
      * destruct J as [<-|[]]. exact Logic.I.
  - (* other *)
    intros w fold ops f _ _ out W T. cbn [build bits ew].
    pose proof (opaque_spec D (EOther w fold ops f) W out T) as Opq. cbn [ew] in Opq.
    unfold folded. destruct fold as [v|]; [|exact Opq].
    destruct (Nat.eqb_spec (length v) w) as [L|L]; [|exact Opq].
    apply (const_spec D (EOther w (Some v) ops f)); auto.
Qed.

End P.
