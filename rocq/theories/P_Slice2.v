(** More proofs about bit slicing: values, refinement by hints, alignment, assignments. *)
From Coq Require Import Sorted.
From Verif Require Import Base M_Slice S_Slice P_Slice.

Section P2.
Variable V : Type.
Variable vz : V.
Notation expr := (expr V).
Notation slice := (slice V).

Definition nodyn : path -> nat -> Prop := fun _ _ => False.

Lemma no_hints_sorted : sorted_hints no_hints.
Proof. intros s l H. discriminate. Qed.

Lemma splits_none p : splits no_hints p = [].
Proof. unfold splits, no_hints. now destruct (proot p). Qed.

Lemma build_list_spec h (e : expr) : sorted_hints h -> typed nodyn e ->
  tiled 0 (build vz h e []) (ew e) /\ provs V vz (build vz h e []) = bits vz e /\
  good V False (build vz h e []).
Proof.
  intros Sh Te.
  destruct (build_spec V vz nodyn h Sh (fun p w (F : nodyn p w) => match F with end) e Te [] 0 eq_refl)
    as (new & E & T & P & G).
  cbn in E. rewrite E. split; [exact T|]. split; [apply P; intros p k []|].
  intros s I x J. specialize (G s I x J). destruct x; cbn in *; auto.
  destruct G as [A [B|(q & k & [])]]. auto.
Qed.

Lemma bits_length (e : expr) : typed nodyn e -> length (bits vz e) = ew e.
Proof.
  intros Te. destruct (build_list_spec no_hints e no_hints_sorted Te) as (T & P & _).
  rewrite <- P, (provs_length V vz _ _ _ T). lia.
Qed.

(** * Values depend only on the attributed bits *)
Lemma reads_eval v1 v2 : forall e : expr, agree v1 v2 (reads e) -> eval vz v1 e = eval vz v2 e.
Proof.
  assert (Look : forall p a n, agree v1 v2 (lsp_reads p a n) ->
            forall i, a <= i < a + n -> look vz v1 p i = look vz v2 p i).
  { intros p a n A i Hi. unfold look, lsp_reads in *. destruct (proot p) as [s|]; [|reflexivity].
    apply A. apply in_map_iff. exists i. split; [reflexivity|]. apply in_seq. lia. }
  assert (Lst : forall es, Forall (fun e => agree v1 v2 (reads e) -> eval vz v1 e = eval vz v2 e) es ->
            agree v1 v2 (flat_map reads es) -> map (eval vz v1) es = map (eval vz v2) es).
  { induction 1 as [|e es He _ IH]; intros A; [reflexivity|]. cbn in *. f_equal.
    - apply He. intros s i I. apply A. apply in_or_app. auto.
    - apply IH. intros s i I. apply A. apply in_or_app. auto. }
  apply (expr_rect' V (fun e => agree v1 v2 (reads e) -> eval vz v1 e = eval vz v2 e)); cbn [reads eval].
  - intros p w A. apply map_ext_in. intros i I. apply in_seq in I.
    apply (Look p (plo p) w A). lia.
  - intros p w ops f IH A. f_equal.
    + apply map_ext_in. intros i I. apply in_seq in I.
      apply (Look p (plo p) (phi p + 1 - plo p)); [|lia]. intros s j J. apply A, in_or_app. auto.
    + apply Lst; [exact IH|]. intros s j J. apply A, in_or_app. auto.
  - intros w es IH A. now rewrite (Lst es IH A).
  - intros w [n|] e IH A; now rewrite (IH A).
  - intros w prop si so fold e IH A. now rewrite (IH A).
  - intros w s c l r m IHc IHl IHr A. rewrite IHc, IHl, IHr; [reflexivity| | |];
      intros t i I; apply A; rewrite !in_app_iff; auto.
  - intros w fold ops f IH A. f_equal. now apply Lst.
Qed.

Definition ok3 (v1 v2 : env V) (b : list (list (atom V))) (x y : list V) : Prop :=
  length b = length x /\ length b = length y /\
  forall k, k < length b -> agree v1 v2 (flat_map atom_reads (nth k b [])) ->
    nth k x vz = nth k y vz.

Lemma ok3_nil v1 v2 : ok3 v1 v2 [] [] [].
Proof. repeat split; cbn; lia. Qed.

Lemma ok3_app v1 v2 b x y b' x' y' :
  ok3 v1 v2 b x y -> ok3 v1 v2 b' x' y' -> ok3 v1 v2 (b ++ b') (x ++ x') (y ++ y').
Proof.
  intros (A1 & A2 & A3) (B1 & B2 & B3). unfold ok3. rewrite !app_length.
  split; [lia|]. split; [lia|]. intros k K H. destruct (Nat.lt_ge_cases k (length b)) as [L|L].
  - rewrite app_nth1 in H by exact L. rewrite !app_nth1 by lia. now apply A3.
  - rewrite app_nth2 in H by exact L. rewrite !app_nth2 by lia. rewrite <- A1, <- A2.
    apply B3; [lia|exact H].
Qed.

Lemma ok3_same v1 v2 b x : length b = length x -> ok3 v1 v2 b x x.
Proof. intros H. repeat split; auto. Qed.

Lemma ok3_opaque v1 v2 (e : expr) w : length (eval vz v1 e) = w -> length (eval vz v2 e) = w ->
  ok3 v1 v2 (repeat [AOpq e] w) (eval vz v1 e) (eval vz v2 e).
Proof.
  intros A B. unfold ok3. rewrite repeat_length. split; [auto|]. split; [auto|].
  intros k K H. rewrite (nth_indep _ [] [AOpq e]) in H by (rewrite repeat_length; auto).
  rewrite nth_repeat in H. cbn in H. rewrite app_nil_r in H. now rewrite (reads_eval v1 v2 e H).
Qed.

Lemma nth_singleton_map {A B} (f : A -> B) l k d : k < length l ->
  nth k (map (fun x => [f x]) l) [] = [f (nth k l d)].
Proof.
  intros K. rewrite (nth_indep _ [] [f d]) by (rewrite map_length; auto).
  now rewrite (map_nth (fun x => [f x])).
Qed.

Lemma bits_sound v1 v2 : forall e : expr,
  typed nodyn e -> sized vz e -> folds_ok vz e -> unsigned_ext e ->
  ok3 v1 v2 (bits vz e) (eval vz v1 e) (eval vz v2 e).
Proof.
  apply (expr_rect' V (fun e => typed nodyn e -> sized vz e -> folds_ok vz e -> unsigned_ext e ->
    ok3 v1 v2 (bits vz e) (eval vz v1 e) (eval vz v2 e))).
  - (* LSP *)
    intros p w (A & -> & R) _ _ _. cbn [bits eval]. unfold ok3. rewrite !map_length, seq_length.
    split; [reflexivity|]. split; [reflexivity|]. intros k K H.
    rewrite nth_map_seq in H by exact K. rewrite !nth_map_seq by exact K. unfold look.
    destruct (proot p) as [s|]; [|congruence]. apply H. cbn. auto.
  - intros p w ops f _ (_ & []).
  - (* concat *)
    intros w es IH (_ & T) (_ & Sz) F U. cbn [sized folds_ok unsigned_ext] in *.
    apply all_Forall in T, Sz, F, U. cbn [bits eval].
    induction IH as [|e es He IH IHes]; [apply ok3_nil|].
    inversion T; inversion Sz; inversion F; inversion U; subst.
    cbn [map rev]. rewrite !concat_app. cbn [concat]. rewrite !app_nil_r.
    apply ok3_app; auto.
  - (* replication *)
    intros w [n|] e IH T (S1 & Sz) F U.
    + destruct T as (-> & T). cbn [bits eval folds_ok unsigned_ext] in *.
      specialize (IH T Sz F U). clear S1. induction (Z.to_nat n) as [|k IHk]; [apply ok3_nil|].
      cbn [repeat concat]. apply ok3_app; auto.
    + cbn [bits]. apply ok3_opaque; apply S1.
  - (* conversion *)
    intros w prop si so fold e IH T (S1 & Sz) (F1 & F2) (U1 & U2). cbn [bits]. cbv zeta.
    assert (Plain : ok3 v1 v2
       (if w <? ew e then repeat [AOpq (EConv w prop si so fold e)] w
        else bits vz e ++ repeat [if si && so then APad else AConst vz] (w - ew e))
       (eval vz v1 (EConv w prop si so fold e)) (eval vz v2 (EConv w prop si so fold e))).
    { destruct (Nat.ltb_spec w (ew e)) as [L|L].
      - apply ok3_opaque; apply S1.
      - destruct T as [T|T]; [lia|]. specialize (IH T Sz F2 U2).
        assert (E : forall v, eval vz v (EConv w prop si so fold e) =
                              eval vz v e ++ repeat vz (w - ew e)).
        { intros v. cbn [eval]. unfold resize.
          assert (Le : length (eval vz v e) = ew e) by (destruct e; apply Sz).
          rewrite Le, firstn_all2 by lia. f_equal.
          destruct (Nat.eq_dec w (ew e)) as [->|N]; [now rewrite Nat.sub_diag|].
          rewrite U1 by lia. reflexivity. }
        rewrite !E. apply ok3_app; [exact IH|]. apply ok3_same. now rewrite !repeat_length. }
    destruct fold as [c|]; [|exact Plain]. destruct (Nat.eqb_spec (length c) w) as [L|L]; [|exact Plain].
    rewrite !(F1 c _ eq_refl). apply ok3_same. now rewrite map_length.
  - (* conditional *)
    intros w s c l r m _ IHl IHr T (S1 & _ & Szl & Szr) (Fl & Fr) (Ul & Ur). cbn [bits].
    destruct (Nat.eqb_spec (ew l) w) as [El|]; [|apply ok3_opaque; apply S1].
    destruct (Nat.eqb_spec (ew r) w) as [Er|]; [|apply ok3_opaque; apply S1].
    destruct s; cbn [andb]; [|apply ok3_opaque; apply S1].
    cbn [typed] in T. destruct (T El Er) as [Tl Tr].
    destruct (IHl Tl Szl Fl Ul) as (A1 & A2 & A3). destruct (IHr Tr Szr Fr Ur) as (B1 & B2 & B3).
    pose proof (bits_length l Tl) as Ll. pose proof (bits_length r Tr) as Lr.
    assert (Lz : length (zip3 (AOpq c) (bits vz l) (bits vz r)) = w).
    { unfold zip3. rewrite map_length, combine_length. lia. }
    unfold ok3. rewrite Lz. cbn [eval]. rewrite !map_length, !seq_length.
    split; [reflexivity|]. split; [reflexivity|]. intros k K H.
    rewrite nth_zip in H by lia. rewrite !nth_map_seq by exact K. cbn [plus].
    rewrite !flat_map_app in H. cbn [flat_map atom_reads] in H. rewrite app_nil_r in H.
    rewrite (A3 k), (B3 k); [|lia| |lia|].
    + rewrite (reads_eval v1 v2 c); [reflexivity|]. intros t i I. apply H.
      rewrite !in_app_iff. auto.
    + intros t i I. apply H. rewrite !in_app_iff. auto.
    + intros t i I. apply H. rewrite !in_app_iff. auto.
  - (* other *)
    intros w fold ops f _ _ (S1 & _) F _. cbn [bits].
    destruct fold as [c|]; [|apply ok3_opaque; apply S1].
    destruct (Nat.eqb_spec (length c) w) as [L|L]; [|apply ok3_opaque; apply S1].
    cbn [folds_ok] in F. rewrite !(F c _ eq_refl). apply ok3_same. now rewrite map_length.
Qed.

(** * Hints only add boundaries *)
Lemma boundary_app (a b : list slice) k : boundary (a ++ b) k <-> boundary a k \/ boundary b k.
Proof.
  unfold boundary. split.
  - intros (s & I & E). apply in_app_or in I. destruct I; eauto.
  - intros [(s & I & E)|(s & I & E)]; exists s; split; auto; apply in_or_app; auto.
Qed.

Lemma boundary_one lo hi (ss : list (source V)) k : boundary [Slice lo hi ss] k <-> k = hi.
Proof.
  unfold boundary. split; [intros (s & [<-|[]] & <-); reflexivity|].
  intros ->. eexists. split; [now left|reflexivity].
Qed.

Lemma pairs_snd : forall cs c, In c cs -> hd_error cs = Some c \/ exists a, In (a, c) (pairs cs).
Proof.
  induction cs as [|x cs IH]; intros c I; [destruct I|]. destruct I as [->|I]; [now left|].
  right. destruct cs as [|y cs]; [destruct I|]. rewrite pairs_cons.
  destruct (IH c I) as [E|(a & J)].
  - cbn in E. inversion E; subst. exists x. now left.
  - exists a. now right.
Qed.

Lemma boundary_unify base (l r : list slice) w c k : tiled 0 l w -> tiled 0 r w ->
  (boundary (unify base l r c) k <-> exists j, k = base + j /\ (boundary l j \/ boundary r j)).
Proof.
  intros Tl Tr. destruct (merge_facts V l r w Tl Tr) as (S & H & I & M & IC). split.
  - intros (s & J & <-). unfold unify in J. apply in_map_iff in J. destruct J as ([a b] & <- & J).
    exists b. split; [reflexivity|]. destruct (pairs_gap _ _ _ S J) as (L & _ & Ib & _).
    apply IC in Ib. destruct Ib as [->|Ib]; [lia|exact Ib].
  - intros (j & -> & B). assert (Ij : In j (mergeCuts (collectCuts l) (collectCuts r)))
      by (apply IC; auto).
    destruct (pairs_snd _ _ Ij) as [E|(a & J)].
    + rewrite H in E. inversion E; subst. exfalso.
      destruct B as [(s & I2 & Q)|(s & I2 & Q)].
      * pose proof (tiled_bounds V _ _ _ _ Tl I2). lia.
      * pose proof (tiled_bounds V _ _ _ _ Tr I2). lia.
    + eexists. split; [unfold unify; apply in_map_iff; eexists; split; [reflexivity|exact J]|].
      reflexivity.
Qed.

(** Boundaries of what is appended; the position is relative to the start. *)
Definition bnds (h : hints) (e : expr) (out : list slice) (W k : nat) : Prop :=
  exists new, build vz h e out = out ++ new /\ boundary new (W + k).

(** The boundaries do not depend on what was there before. *)
Inductive bset (h : hints) : expr -> nat -> Prop :=
| BLsp p w : 0 < w -> bset h (ELsp p w) w
| BLspCut p w c : 0 < w -> In c (splits h p) -> bset h (ELsp p w) (c - plo p)
| BCat w a x b k : bset h x k -> bset h (EConcat w (a ++ x :: b)) (list_sum (map ew b) + k)
| BRepO w x : 0 < w -> bset h (ERepl w None x) w
| BRep w n x i k : i < Z.to_nat n -> bset h x k -> bset h (ERepl w (Some n) x) (i * ew x + k)
| BFold w prop si so fold x v : 0 < w -> folded fold w = Some v ->
    bset h (EConv w prop si so fold x) w
| BConv w prop si so fold x k : folded fold w = None -> ew x <= w -> bset h x k ->
    bset h (EConv w prop si so fold x) k
| BPad w prop si so fold x : folded fold w = None -> ew x < w ->
    bset h (EConv w prop si so fold x) w
| BNarrow w prop si so fold x : folded fold w = None -> w < ew x -> 0 < w ->
    bset h (EConv w prop si so fold x) w
| BCondL w c l r m k : ew l = w -> ew r = w -> bset h l k -> bset h (ECond w true c l r m) k
| BCondR w c l r m k : ew l = w -> ew r = w -> bset h r k -> bset h (ECond w true c l r m) k
| BCondO w s c l r m : ~ (ew l = w /\ ew r = w /\ s = true) -> 0 < w ->
    bset h (ECond w s c l r m) w
| BOther w fold ops f : 0 < w -> bset h (EOther w fold ops f) w.

Definition bok (h : hints) (e : expr) : Prop :=
  typed nodyn e -> forall out W, tiled 0 out W ->
  exists new, build vz h e out = out ++ new /\ tiled W new (W + ew e) /\
    forall k, boundary new k <-> exists j, bset h e j /\ k = W + j.

Lemma bok_opaque h (e : expr) out W : tiled 0 out W -> build vz h e out = pushOpaque out e ->
  (forall j, bset h e j <-> 0 < ew e /\ j = ew e) ->
  exists new, build vz h e out = out ++ new /\ tiled W new (W + ew e) /\
    forall k, boundary new k <-> exists j, bset h e j /\ k = W + j.
Proof.
  intros T E B. rewrite E. unfold pushOpaque. rewrite (tiled_width V _ _ T).
  destruct (Nat.eqb_spec (ew e) 0) as [Z|Z].
  - exists []. rewrite app_nil_r. split; [reflexivity|]. split; [cbn; lia|]. intros k. split.
    + intros (s & [] & _).
    + intros (j & Bj & _). apply B in Bj. lia.
  - eexists. split; [reflexivity|]. split; [apply tiled_one; lia|]. intros k.
    rewrite boundary_one. split.
    + intros ->. exists (ew e). split; [apply B; lia|reflexivity].
    + intros (j & Bj & ->). apply B in Bj. lia.
Qed.

Lemma bok_const h (e : expr) v out W : tiled 0 out W -> build vz h e out = pushConstant out v e ->
  (forall j, bset h e j <-> 0 < ew e /\ j = ew e) ->
  exists new, build vz h e out = out ++ new /\ tiled W new (W + ew e) /\
    forall k, boundary new k <-> exists j, bset h e j /\ k = W + j.
Proof.
  intros T E B. rewrite E. unfold pushConstant. rewrite (tiled_width V _ _ T).
  destruct (Nat.eqb_spec (ew e) 0) as [Z|Z].
  - exists []. rewrite app_nil_r. split; [reflexivity|]. split; [cbn; lia|]. intros k. split.
    + intros (s & [] & _).
    + intros (j & Bj & _). apply B in Bj. lia.
  - eexists. split; [reflexivity|]. split; [apply tiled_one; lia|]. intros k.
    rewrite boundary_one. split.
    + intros ->. exists (ew e). split; [apply B; lia|reflexivity].
    + intros (j & Bj & ->). apply B in Bj. lia.
Qed.

Lemma bset_cat_inv h w (es : list expr) k : bset h (EConcat w es) k ->
  exists a x b j, es = a ++ x :: b /\ bset h x j /\ k = list_sum (map ew b) + j.
Proof. intros B. inversion B; subst. eauto 8. Qed.

Lemma build_bset h : sorted_hints h -> forall e, bok h e.
Proof.
  intros Sh. apply (expr_rect' V (bok h)); unfold bok.
  - (* LSP *)
    intros p w (A & Ew & R) out W T. cbn [build ew]. rewrite pushLsp_eq, (tiled_width V _ _ T).
    destruct (splits_spec h p Sh) as [S SI].
    destruct (Nat.eqb_spec w 0) as [Z|Z]; [lia|].
    destruct (splits h p) as [|c cs] eqn:Es.
    + eexists. split; [reflexivity|]. split; [apply tiled_one; lia|]. intros k.
      rewrite boundary_one. split.
      * intros ->. exists w. split; [constructor; lia|reflexivity].
      * intros (j & Bj & ->). inversion Bj; subst; [reflexivity|].
        rewrite Es in *. contradiction.
    + destruct (emit_spec V vz W p (c :: cs) (plo p)) as (T1 & _ & B1 & _); [lia|lia|exact S| |].
      { intros d I. apply SI in I. lia. }
      rewrite Nat.sub_diag, Nat.add_0_r in T1. subst w.
      eexists. split; [reflexivity|]. split; [exact T1|]. intros k. rewrite B1. split.
      * intros [->|(d & I & ->)].
        -- exists (phi p + 1 - plo p). split; [constructor; lia|reflexivity].
        -- exists (d - plo p). split; [|reflexivity]. constructor; [lia|]. now rewrite Es.
      * intros (j & Bj & ->). inversion Bj; subst; [auto|]. right. rewrite Es in *. eauto.
  - intros p w ops f _ (_ & []).
  - (* concat *)
    intros w es IH (-> & H) out W T. apply all_Forall in H. cbn [build ew].
    assert (X : exists new, fold_right (build vz h) out es = out ++ new /\
       tiled W new (W + list_sum (map ew es)) /\
       forall k, boundary new k <->
         exists a x b j, es = a ++ x :: b /\ bset h x j /\ k = W + (list_sum (map ew b) + j)).
    { revert out W T. induction es as [|e es IHes]; intros out W T.
      - exists []. rewrite app_nil_r. split; [reflexivity|]. split; [cbn; lia|]. intros k. split.
        + intros (s & [] & _).
        + intros (a & x & b & j & E & _). destruct a; discriminate.
      - inversion IH as [|? ? He IH']; subst. inversion H as [|? ? Te H']; subst.
        destruct (IHes IH' H' out W T) as (n1 & E1 & T1 & B1).
        destruct (He Te (out ++ n1) (W + list_sum (map ew es))) as (n2 & E2 & T2 & B2).
        { apply tiled_out; auto. }
        exists (n1 ++ n2). cbn [fold_right]. rewrite E1, E2, app_assoc. split; [reflexivity|]. split.
        + apply tiled_app. exists (W + list_sum (map ew es)). split; [exact T1|].
          change (list_sum (map ew (e :: es))) with (ew e + list_sum (map ew es)).
          replace (W + (ew e + list_sum (map ew es))) with (W + list_sum (map ew es) + ew e) by lia.
          exact T2.
        + intros k. rewrite boundary_app, B1, B2. split.
          * intros [(a & x & b & j & -> & Q & ->)|(j & Q & ->)].
            -- exists (e :: a), x, b, j. auto.
            -- exists [], e, es, j. split; [reflexivity|]. split; [exact Q|lia].
          * intros (a & x & b & j & E & Q & ->). destruct a as [|a0 a]; cbn in E; inversion E; subst.
            -- right. exists j. split; [exact Q|lia].
            -- left. exists a, x, b, j. auto. }
    destruct X as (new & E & T1 & B1). exists new. split; [exact E|]. split; [exact T1|].
    intros k. rewrite B1. split.
    + intros (a & x & b & j & -> & Q & ->). eexists. split; [apply BCat; exact Q|reflexivity].
    + intros (j & Q & ->). apply bset_cat_inv in Q. destruct Q as (a & x & b & j' & -> & Q & ->).
      exists a, x, b, j'. auto.
  - (* replication *)
    intros w [n|] e IH H out W T.
    2:{ apply bok_opaque; [exact T|reflexivity|]. intros j. cbn [ew]. split.
        - intros B. inversion B; subst. auto.
        - intros [A ->]. now constructor. }
    destruct H as (-> & Te). specialize (IH Te). cbn [build ew].
    assert (X : exists new, Nat.iter (Z.to_nat n) (build vz h e) out = out ++ new /\
       tiled W new (W + Z.to_nat n * ew e) /\
       forall k, boundary new k <->
         exists i j, i < Z.to_nat n /\ bset h e j /\ k = W + (i * ew e + j)).
    { induction (Z.to_nat n) as [|m IHm]; cbn [Nat.iter nat_rect].
      - exists []. rewrite app_nil_r. split; [reflexivity|]. split; [cbn; lia|]. intros k. split.
        + intros (s & [] & _).
        + intros (i & j & L & _). lia.
      - destruct IHm as (n1 & E1 & T1 & B1).
        destruct (IH (out ++ n1) (W + m * ew e)) as (n2 & E2 & T2 & B2).
        { apply tiled_out; auto. }
        exists (n1 ++ n2). unfold Nat.iter in E1. rewrite E1, E2, app_assoc. split; [reflexivity|].
        split.
        + apply tiled_app. exists (W + m * ew e). split; [exact T1|].
          replace (W + S m * ew e) with (W + m * ew e + ew e) by lia. exact T2.
        + intros k. rewrite boundary_app, B1, B2. split.
          * intros [(i & j & L & Q & ->)|(j & Q & ->)].
            -- exists i, j. auto.
            -- exists m, j. split; [lia|]. split; [exact Q|lia].
          * intros (i & j & L & Q & ->). destruct (Nat.eq_dec i m) as [->|N].
            -- right. exists j. split; [exact Q|lia].
            -- left. exists i, j. split; [lia|auto]. }
    destruct X as (new & E & T1 & B1). exists new. split; [exact E|]. split; [exact T1|].
    intros k. rewrite B1. split.
    + intros (i & j & L & Q & ->). eexists. split; [eapply BRep; eassumption|reflexivity].
    + intros (j & Q & ->). inversion Q; subst. eauto 8.
  - (* conversion *)
    intros w prop si so fold e IH H out W T.
    assert (Bld : build vz h (EConv w prop si so fold e) out =
       match folded fold w with
       | Some v => pushConstant out v (EConv w prop si so fold e)
       | None =>
         if w =? ew e then build vz h e out
         else if ew e <? w then
           build vz h e out ++
           [Slice (width (build vz h e out)) (width (build vz h e out) + (w - ew e))
              [if si && so then SPad true
               else SConst (repeat vz (w - ew e)) (width (build vz h e out))
                      (width (build vz h e out) + (w - ew e)) None]]
         else pushOpaque out (EConv w prop si so fold e)
       end) by reflexivity.
    destruct (folded fold w) as [v|] eqn:F.
    { apply (bok_const h _ v); [exact T|rewrite Bld; reflexivity|]. intros j. cbn [ew]. split.
      - intros B. inversion B; subst; try congruence. auto.
      - intros [A ->]. eapply BFold; eassumption. }
    destruct (Nat.eqb_spec w (ew e)) as [Ew|N].
    { destruct H as [H|H]; [lia|]. rewrite Bld. cbn [ew].
      destruct (IH H out W T) as (new & E & T1 & B1). exists new. split; [exact E|].
      split; [rewrite Ew; exact T1|]. intros k. rewrite B1. split.
      - intros (j & Q & ->). exists j. split; [apply BConv; [exact F|lia|exact Q]|reflexivity].
      - intros (j & Q & ->). exists j. split; [|reflexivity]. inversion Q; subst; congruence || lia || auto. }
    destruct (Nat.ltb_spec (ew e) w) as [L|L].
    { destruct H as [H|H]; [lia|]. rewrite Bld. cbn [ew].
      destruct (IH H out W T) as (n1 & E & T1 & B1). rewrite E.
      assert (T2 : tiled 0 (out ++ n1) (W + ew e)) by (apply tiled_out; auto).
      rewrite (tiled_width V _ _ T2). eexists. split; [now rewrite <- app_assoc|]. split.
      - apply tiled_app. exists (W + ew e). split; [exact T1|].
        replace (W + w) with (W + ew e + (w - ew e)) by lia. apply tiled_one. lia.
      - intros k. rewrite boundary_app, B1, boundary_one. split.
        + intros [(j & Q & ->)| ->].
          * exists j. split; [apply BConv; [exact F|lia|exact Q]|reflexivity].
          * exists w. split; [apply BPad; auto|lia].
        + intros (j & Q & ->). inversion Q; subst; try congruence; try (left; eauto; fail); right; lia. }
    apply bok_opaque; [exact T|rewrite Bld; reflexivity|]. intros j. cbn [ew]. split.
    + intros B. inversion B; subst; try congruence; try lia.
    + intros [A ->]. apply BNarrow; [exact F|lia|exact A].
  - (* conditional *)
    intros w s c l r m _ IHl IHr H out W T.
    assert (Dec : (ew l = w /\ ew r = w /\ s = true) \/ ~ (ew l = w /\ ew r = w /\ s = true)).
    { destruct (Nat.eq_dec (ew l) w), (Nat.eq_dec (ew r) w), s; intuition congruence. }
    destruct Dec as [(El & Er & ->)|N].
    + cbn [typed] in H. destruct (H El Er) as [Hl Hr].
      destruct (IHl Hl [] 0 eq_refl) as (nl & Bl & Tl & BBl).
      destruct (IHr Hr [] 0 eq_refl) as (nr & Br & Tr & BBr).
      cbn [app plus] in Bl, Br, Tl, Tr. cbn [build ew].
      rewrite Bl, Br, (tiled_width V _ _ Tl), (tiled_width V _ _ Tr), El, Er, Nat.eqb_refl.
      cbn [negb orb]. rewrite El in Tl. rewrite Er in Tr.
      rewrite (tiled_width V _ _ T). eexists. split; [reflexivity|].
      split; [apply unify_tiled; auto|]. intros k.
      rewrite (boundary_unify W nl nr w c k Tl Tr). split.
      * intros (j & -> & [B|B]); [apply BBl in B|apply BBr in B]; destruct B as (j' & Q & ->);
          eexists; (split; [|reflexivity]); [apply BCondL|apply BCondR]; auto.
      * intros (j & Q & ->). exists j. split; [reflexivity|]. inversion Q; subst.
        -- left. apply BBl. eauto.
        -- right. apply BBr. eauto.
        -- exfalso. match goal with X : ~ _ |- _ => apply X end. auto.
    + apply bok_opaque; [exact T| |].
      * cbn [build]. destruct (Nat.eqb_spec (ew l) (ew r)), (Nat.eqb_spec (ew l) w);
          cbn [negb orb]; try reflexivity. destruct s; [|reflexivity]. exfalso. apply N.
        split; [auto|]. split; [congruence|reflexivity].
      * intros j. cbn [ew]. split.
        -- intros B. inversion B; subst; try (exfalso; apply N; auto; fail). auto.
        -- intros [A ->]. now apply BCondO.
  - (* other *)
    intros w fold ops f _ _ out W T.
    assert (B : forall j, bset h (EOther w fold ops f) j <->
                  0 < ew (EOther w fold ops f) /\ j = ew (EOther w fold ops f)).
    { intros j. cbn [ew]. split.
      - intros B. inversion B; subst. auto.
      - intros [A ->]. now constructor. }
    destruct (folded fold w) as [v|] eqn:F.
    + apply (bok_const h _ v); [exact T|cbn [build]; now rewrite F|exact B].
    + apply bok_opaque; [exact T|cbn [build]; now rewrite F|exact B].
Qed.

Lemma bset_mono h h' : (forall p c, In c (splits h p) -> In c (splits h' p)) ->
  forall (e : expr) k, bset h e k -> bset h' e k.
Proof.
  intros Hs e k B. induction B.
  - now apply BLsp.
  - apply BLspCut; auto.
  - now apply BCat.
  - now apply BRepO.
  - now apply BRep.
  - eapply BFold; eassumption.
  - now apply BConv.
  - now apply BPad.
  - now apply BNarrow.
  - now apply BCondL.
  - now apply BCondR.
  - now apply BCondO.
  - now apply BOther.
Qed.

(** * Segments *)
Lemma align_facts (l r : list slice) w g : tiled 0 l w -> tiled 0 r w ->
  In g (alignSegments l r) ->
  slo g < shi g /\ shi g <= w /\ 
  (forall c, boundary l c \/ boundary r c -> c <= slo g \/ shi g <= c) /\
  (slo g = 0 \/ boundary l (slo g) \/ boundary r (slo g)) /\
  (boundary l (shi g) \/ boundary r (shi g)) /\
  (forall k, slo g <= k < shi g -> srcs_at l k = lsrcs g /\ srcs_at r k = rsrcs g).
Proof.
  intros Tl Tr I. unfold alignSegments in I. apply in_map_iff in I.
  destruct I as ([a b] & <- & I). cbn [slo shi lsrcs rsrcs fst snd].
  destruct (merge_facts V l r w Tl Tr) as (S & H & Iw & M & IC).
  destruct (pairs_gap _ _ _ S I) as (L & Ia & Ib & G).
  split; [exact L|]. split; [apply M, Ib|]. split; [intros c B; apply G, IC; auto|].
  split; [apply IC, Ia|]. split.
  - apply IC in Ib. destruct Ib as [->|Ib]; [lia|exact Ib].
  - intros k K. apply (seg_find V l r w a b k Tl Tr I K).
Qed.

Lemma align_cover (l r : list slice) w k : tiled 0 l w -> tiled 0 r w -> k < w ->
  exists g, In g (alignSegments l r) /\ slo g <= k < shi g.
Proof.
  intros Tl Tr K. destruct (merge_facts V l r w Tl Tr) as (S & H & Iw & M & IC).
  unfold alignSegments.
  remember (mergeCuts (collectCuts l) (collectCuts r)) as cs eqn:Ecs. clear Ecs IC.
  assert (X : forall cs lo, StronglySorted lt cs -> hd_error cs = Some lo -> In w cs -> lo <= k ->
                exists a b, In (a, b) (pairs cs) /\ a <= k < b).
  { clear -K. induction cs as [|x cs IH]; intros lo S H I L; [discriminate|].
    cbn in H. inversion H; subst x; clear H. destruct cs as [|y cs].
    - destruct I as [->|[]]. lia.
    - rewrite pairs_cons. destruct (Nat.lt_ge_cases k y) as [Q|Q].
      + exists lo, y. split; [now left|lia].
      + inversion S; subst. destruct (IH y) as (a & b & I2 & A); auto.
        * destruct I as [->|I]; [lia|exact I].
        * exists a, b. split; [now right|exact A]. }
  destruct (X cs 0 S H Iw) as (a & b & I & A); [lia|].
  eexists. split; [apply in_map_iff; eexists; split; [reflexivity|exact I]|]. exact A.
Qed.

(** * Notes of one segment *)
Lemma noted_app a b s i : noted (a ++ b) s i <-> noted a s i \/ noted b s i.
Proof.
  unfold noted. split.
  - intros (lo & hi & I & L). apply in_app_or in I. destruct I; eauto 6.
  - intros [(lo & hi & I & L)|(lo & hi & I & L)]; exists lo, hi; split; auto; apply in_or_app; auto.
Qed.

(** The bits of a source over the segment. *)
Definition src_bits (g : segment V) (x : source V) (s i : nat) : Prop :=
  exists k, slo g <= k < shi g /\ In (ABit (Some s) i) (atoms_of vz k x).

Lemma lsp_note_spec p lo hi (g : segment V) : proot p <> None -> lo <= slo g -> slo g < shi g ->
  exists n, lsp_note p lo g = Some n /\
    forall s i, noted [n] s i <-> src_bits g (SLsp p lo hi) s i.
Proof.
  intros R L1 L2. unfold lsp_note. destruct (proot p) as [s0|] eqn:E; [|congruence].
  replace (slo g <? lo) with false by lia. eexists. split; [reflexivity|]. intros s i.
  unfold noted, src_bits. cbn [atoms_of In]. rewrite E. split.
  - intros (a & b & [Q|[]] & K). inversion Q; subst.
    exists (lo + (i - plo p)). split; [lia|]. left. f_equal. lia.
  - intros (k & K & [Q|[]]). inversion Q; subst. eexists. eexists. split; [now left|]. lia.
Qed.

Definition wf_src (g : segment V) (x : source V) : Prop :=
  match x with
  | SLsp p lo hi => lo <= slo g /\ proot p <> None
  | SConst v lo hi _ => lo <= slo g /\ shi g <= hi /\ length v = hi - lo
  | SPort _ _ _ => False
  | _ => True
  end.

Lemma lhs_notes_spec (g : segment V) : slo g < shi g -> forall ss,
  (forall x, In x ss -> wf_src g x) ->
  exists ns, lhs_notes g ss = Some ns /\
    forall s i, noted ns s i <-> exists x, In x ss /\ src_bits g x s i.
Proof.
  intros L. induction ss as [|x ss IH]; intros W.
  - exists []. split; [reflexivity|]. intros s i. split; [intros (a & b & [] & _)|intros (x & [] & _)].
  - destruct IH as (ns & E & H); [intros y I; apply W; now right|].
    pose proof (W x (or_introl eq_refl)) as Wx.
    assert (Skip : (forall s i, ~ src_bits g x s i) ->
      lhs_notes g (x :: ss) = lhs_notes g ss ->
      exists ns0, lhs_notes g (x :: ss) = Some ns0 /\
        forall s i, noted ns0 s i <-> exists y, In y (x :: ss) /\ src_bits g y s i).
    { intros N Q. exists ns. split; [congruence|]. intros s i. rewrite H. split.
      - intros (y & I & B). exists y. split; [now right|exact B].
      - intros (y & [<-|I] & B); [now apply N in B|]. exists y. auto. }
    destruct x as [p lo hi|sg|e|n lo hi|v lo hi e]; try (apply Skip; [|reflexivity];
      intros s i (k & K & Q); cbn in Q; intuition discriminate).
    destruct Wx as [W1 W2]. destruct (lsp_note_spec p lo hi g W2 W1 L) as (n & En & Hn).
    exists (n :: ns). cbn [lhs_notes]. rewrite En, E. split; [reflexivity|]. intros s i.
    change (n :: ns) with ([n] ++ ns). rewrite noted_app, Hn, H. split.
    + intros [B|(y & I & B)]; [exists (SLsp p lo hi); split; [now left|exact B]|].
      exists y. split; [now right|exact B].
    + intros (y & [<-|I] & B); [now left|]. right. exists y. auto.
Qed.

Lemma rhs_notes_spec (g : segment V) : slo g < shi g -> forall ss acc,
  (forall x, In x ss -> wf_src g x) ->
  exists n, rhs_notes g ss acc = Some n /\ ln n = ln acc /\
    (forall s i, noted (rn n) s i <-> noted (rn acc) s i \/ exists x, In x ss /\ src_bits g x s i) /\
    (forall e, In e (ropq n) <-> In e (ropq acc) \/ In (SOpq e) ss) /\
    (forall c, In c (rconst n) <-> In c (rconst acc) \/
       exists v lo hi e, In (SConst v lo hi e) ss /\ c = const_slice v lo g).
Proof.
  intros L. induction ss as [|x ss IH]; intros acc W.
  - exists acc. split; [reflexivity|]. split; [reflexivity|]. split; [|split].
    + intros s i. split; [auto|]. intros [A|(x & [] & _)]. exact A.
    + intros e. cbn. tauto.
    + intros c. split; [auto|]. intros [A|(v & lo & hi & e & [] & _)]. exact A.
  - pose proof (W x (or_introl eq_refl)) as Wx.
    assert (W' : forall y, In y ss -> wf_src g y) by (intros y I; apply W; now right).
    destruct x as [p lo hi|sg|e0|m lo hi|v lo hi e0]; cbn [rhs_notes].
    + destruct Wx as [W1 W2]. destruct (lsp_note_spec p lo hi g W2 W1 L) as (nt & En & Hn).
      rewrite En. edestruct IH as (n & E & A & B & C & D); [exact W'|].
      exists n. split; [exact E|]. split; [exact A|]. cbn [rn ropq rconst] in *. split; [|split].
      * intros s i. rewrite B, noted_app, Hn. split.
        -- intros [[Q|Q]|(y & I & Q)]; [auto| |].
           ++ right. exists (SLsp p lo hi). split; [now left|exact Q].
           ++ right. exists y. split; [now right|exact Q].
        -- intros [Q|(y & [<-|I] & Q)]; [auto|auto|]. right. exists y. auto.
      * intros e. rewrite C. cbn [In]. intuition discriminate.
      * intros c. rewrite D. split.
        -- intros [Q|(v & a & b & e & I & Q)]; [auto|]. right. exists v, a, b, e. cbn. auto.
        -- intros [Q|(v & a & b & e & [I|I] & Q)]; [auto|discriminate|]. right. exists v, a, b, e. auto.
    + edestruct IH as (n & E & A & B & C & D); [exact W'|].
      exists n. split; [exact E|]. split; [exact A|]. split; [|split].
      * intros s i. rewrite B. split.
        -- intros [Q|(y & I & Q)]; [auto|]. right. exists y. split; [now right|exact Q].
        -- intros [Q|(y & [<-|I] & Q)]; [auto| |].
           ++ destruct Q as (k & _ & Q). cbn in Q. intuition discriminate.
           ++ right. exists y. auto.
      * intros e. rewrite C. cbn [In]. intuition discriminate.
      * intros c. rewrite D. split.
        -- intros [Q|(v & a & b & e & I & Q)]; [auto|]. right. exists v, a, b, e. cbn. auto.
        -- intros [Q|(v & a & b & e & [I|I] & Q)]; [auto|discriminate|]. right. exists v, a, b, e. auto.
    + edestruct IH as (n & E & A & B & C & D); [exact W'|].
      exists n. split; [exact E|]. split; [exact A|]. cbn [rn ropq rconst] in *. split; [|split].
      * intros s i. rewrite B. split.
        -- intros [Q|(y & I & Q)]; [auto|]. right. exists y. split; [now right|exact Q].
        -- intros [Q|(y & [<-|I] & Q)]; [auto| |].
           ++ destruct Q as (k & _ & Q). cbn in Q. intuition discriminate.
           ++ right. exists y. auto.
      * intros e. rewrite C, in_app_iff. cbn [In]. split.
        -- intros [[Q|[Q|[]]]|Q]; subst; auto.
        -- intros [Q|[Q|Q]]; [auto| |auto]. inversion Q; subst. auto.
      * intros c. rewrite D. split.
        -- intros [Q|(v & a & b & e & I & Q)]; [auto|]. right. exists v, a, b, e. cbn. auto.
        -- intros [Q|(v & a & b & e & [I|I] & Q)]; [auto|discriminate|]. right. exists v, a, b, e. auto.
    + destruct Wx.
    + edestruct IH as (n & E & A & B & C & D); [exact W'|].
      exists n. split; [exact E|]. split; [exact A|]. cbn [rn ropq rconst] in *. split; [|split].
      * intros s i. rewrite B. split.
        -- intros [Q|(y & I & Q)]; [auto|]. right. exists y. split; [now right|exact Q].
        -- intros [Q|(y & [<-|I] & Q)]; [auto| |].
           ++ destruct Q as (k & _ & Q). cbn in Q. intuition discriminate.
           ++ right. exists y. auto.
      * intros e. rewrite C. cbn [In]. intuition discriminate.
      * intros c. rewrite D, in_app_iff. cbn [In]. split.
        -- intros [[Q|[Q|[]]]|(v' & a & b & e & I & Q)]; [auto| |].
           ++ right. exists v, lo, hi, e0. auto.
           ++ right. exists v', a, b, e. auto.
        -- intros [Q|(v' & a & b & e & [I|I] & Q)]; [auto| |].
           ++ inversion I; subst. auto.
           ++ right. exists v', a, b, e. auto.
Qed.

Lemma good_wf_src (l : list slice) w (g : segment V) : tiled 0 l w -> good V False l ->
  slo g < shi g -> shi g <= w -> (forall c, boundary l c -> c <= slo g \/ shi g <= c) ->
  forall x, In x (srcs_at l (slo g)) -> wf_src g x.
Proof.
  intros T G L1 L2 B x I. unfold srcs_at in I.
  destruct (find_some_tiled V l 0 w (slo g) T) as (t & Ft & It & Kt); [lia|]. rewrite Ft in I.
  specialize (G t It x I). assert (C : chi t <= slo g \/ shi g <= chi t) by (apply B; exists t; auto).
  destruct x; cbn in *; auto; [|lia]. split; [lia|tauto].
Qed.

Lemma in_flat_atoms (ss : list (source V)) k a :
  In a (flat_map (atoms_of vz k) ss) <-> exists x, In x ss /\ In a (atoms_of vz k x).
Proof. rewrite in_flat_map. split; intros (x & A & B); exists x; auto. Qed.

(** * Assignments *)
Lemma assign_spec h (lhs rhs : expr) : sorted_hints h -> typed nodyn lhs -> typed nodyn rhs ->
  ew lhs = ew rhs ->
  let l := build vz h lhs [] in let r := build vz h rhs [] in
  exists ns, assign vz h false false lhs rhs = ANodes ns /\
    Forall2 (fun g n =>
      (forall s i, noted (ln n) s i <->
         exists k, slo g <= k < shi g /\ In (ABit (Some s) i) (nth k (bits vz lhs) [])) /\
      (forall s i, noted (rn n) s i <->
         exists k, slo g <= k < shi g /\ In (ABit (Some s) i) (nth k (bits vz rhs) [])) /\
      (forall e, In e (ropq n) <->
         exists k, slo g <= k < shi g /\ In (AOpq e) (nth k (bits vz rhs) [])) /\
      (forall c, In c (rconst n) -> length c = shi g - slo g /\
         forall k, slo g <= k < shi g -> In (AConst (nth (k - slo g) c vz)) (nth k (bits vz rhs) [])))
      (alignSegments l r) ns.
Proof.
  intros Sh Tl Tr Ew l r. destruct (build_list_spec h lhs Sh Tl) as (Til & Pl & Gl).
  destruct (build_list_spec h rhs Sh Tr) as (Tir & Pr & Gr). fold l in Til, Pl, Gl.
  fold r in Tir, Pr, Gr. rewrite <- Ew in Tir.
  assert (Al : forall k, k < ew lhs -> flat_map (atoms_of vz k) (srcs_at l k) = nth k (bits vz lhs) []).
  { intros k K. rewrite <- attr_find, (attr_provs V vz l 0 (ew lhs)) by (auto; lia).
    now rewrite Nat.sub_0_r, Pl. }
  assert (Ar : forall k, k < ew lhs -> flat_map (atoms_of vz k) (srcs_at r k) = nth k (bits vz rhs) []).
  { intros k K. rewrite <- attr_find, (attr_provs V vz r 0 (ew lhs)) by (auto; lia).
    now rewrite Nat.sub_0_r, Pr. }
  unfold assign. fold l r. rewrite (tiled_width V _ _ Til), (tiled_width V _ _ Tir), Nat.eqb_refl.
  cbn [negb].
  pose proof (fun g => align_facts l r (ew lhs) g Til Tir) as AF.
  induction (alignSegments l r) as [|g gs IH].
  - exists []. split; [reflexivity|constructor].
  - destruct IH as (ns & E & F); [intros g' I; apply AF; now right|].
    destruct (AF g (or_introl eq_refl)) as (L1 & L2 & Bd & _ & _ & Sg).
    destruct (Sg (slo g)) as [S1 S2]; [lia|].
    assert (Wl : forall x, In x (lsrcs g) -> wf_src g x).
    { rewrite <- S1. apply (good_wf_src l (ew lhs) g); auto. }
    assert (Wr : forall x, In x (rsrcs g) -> wf_src g x).
    { rewrite <- S2. apply (good_wf_src r (ew lhs) g); auto. }
    destruct (lhs_notes_spec g L1 (lsrcs g) Wl) as (ls & El & Hl).
    destruct (rhs_notes_spec g L1 (rsrcs g) (SegNode ls [] [] []) Wr)
      as (n & En & A & B & C & Dd).
    exists (n :: ns). cbn [seg_nodes]. unfold seg_node. rewrite El, En.
    destruct (seg_nodes false false gs) as [ns'|]; [|discriminate].
    inversion E; subst ns'. split; [reflexivity|]. constructor; [|exact F].
    cbn [ln rn ropq rconst] in *. split; [|split; [|split]].
    + intros s i. rewrite A, Hl. split.
      * intros (x & I & k & K & Q). exists k. split; [exact K|]. rewrite <- Al by lia.
        apply in_flat_atoms. exists x. destruct (Sg k K) as [-> _]. auto.
      * intros (k & K & Q). rewrite <- Al in Q by lia. apply in_flat_atoms in Q.
        destruct Q as (x & I & Q). destruct (Sg k K) as [Ek _]. rewrite Ek in I.
        exists x. split; [exact I|]. exists k. auto.
    + intros s i. rewrite B. split.
      * intros [(a & b & [] & _)|(x & I & k & K & Q)]. exists k. split; [exact K|].
        rewrite <- Ar by lia. apply in_flat_atoms. exists x. destruct (Sg k K) as [_ ->]. auto.
      * intros (k & K & Q). rewrite <- Ar in Q by lia. apply in_flat_atoms in Q.
        destruct Q as (x & I & Q). destruct (Sg k K) as [_ Ek]. rewrite Ek in I.
        right. exists x. split; [exact I|]. exists k. auto.
    + intros e. rewrite C. split.
      * intros [[]|I]. exists (slo g). split; [lia|]. rewrite <- Ar by lia. apply in_flat_atoms.
        exists (SOpq e). rewrite S2. split; [exact I|now left].
      * intros (k & K & Q). rewrite <- Ar in Q by lia. apply in_flat_atoms in Q.
        destruct Q as (x & I & Q). destruct (Sg k K) as [_ Ek]. rewrite Ek in I. right.
        destruct x; cbn in Q; try contradiction; destruct Q as [Q|[]]; inversion Q; subst. exact I.
    + intros c I. apply Dd in I. destruct I as [[]|(v & lo & hi & e & I & ->)].
      pose proof (Wr _ I) as (W1 & W2 & W3). unfold const_slice.
      assert (Q : (if length v =? shi g - slo g then v
                   else firstn (shi g - slo g) (skipn (slo g - lo) v)) =
                  firstn (shi g - slo g) (skipn (slo g - lo) v)).
      { destruct (Nat.eqb_spec (length v) (shi g - slo g)) as [L|L]; [|reflexivity].
        replace (slo g - lo) with 0 by lia. cbn [skipn]. now rewrite <- L, firstn_all. }
      cbv zeta. rewrite Q. split; [rewrite firstn_length, skipn_length; lia|].
      intros k K. rewrite <- Ar by lia. apply in_flat_atoms. exists (SConst v lo hi e).
      destruct (Sg k K) as [_ ->]. split; [exact I|]. cbn. left. f_equal.
      assert (Nf : forall (x : list V) m j, j < m -> nth j (firstn m x) vz = nth j x vz).
      { clear. induction x as [|y x IH]; intros [|m] [|j] H; cbn; try lia; auto. apply IH. lia. }
      assert (Ns : forall (x : list V) m j, nth j (skipn m x) vz = nth (m + j) x vz).
      { clear. induction x as [|y x IH]; intros [|m] j; cbn; auto. destruct j; reflexivity. }
      rewrite Nf, Ns by lia. f_equal. lia.
Qed.

End P2.
