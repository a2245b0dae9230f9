(** Proofs about the external manager. *)
From Verif Require Import Base M_Heap.

Lemma set_nth_length {A} (l : list A) : forall n x, length (set_nth l n x) = length l.
Proof. induction l as [|y l IH]; intros [|n] x; cbn; auto. Qed.

Lemma set_nth_same {A} (l : list A) : forall n x,
  n < length l -> nth_error (set_nth l n x) n = Some x.
Proof. induction l as [|y l IH]; intros [|n] x H; cbn in *; try lia; auto. apply IH. lia. Qed.

Lemma set_nth_other {A} (l : list A) : forall n k x,
  n <> k -> nth_error (set_nth l n x) k = nth_error l k.
Proof.
  induction l as [|y l IH]; intros [|n] [|k] x H; cbn; auto; try congruence.
  all: try (apply IH; congruence).
Qed.

Lemma nth_app_last {A} (l : list A) x k :
  nth_error (l ++ [x]) k = if Nat.eqb k (length l) then Some x else nth_error l k.
Proof.
  destruct (Nat.eqb_spec k (length l)) as [->|D].
  - rewrite nth_error_app2 by lia. now rewrite Nat.sub_diag.
  - destruct (Nat.lt_ge_cases k (length l)) as [L|L].
    + now rewrite nth_error_app1.
    + rewrite nth_error_app2 by lia. destruct (k - length l) as [|j] eqn:E; [lia|].
      cbn. destruct j; cbn; symmetry; apply nth_error_None; lia.
Qed.

(** * By value *)
Definition mok {T} (m : mgr T) : Prop :=
  NoDup (freeq m) /\ forall h, In h (freeq m) -> nth_error (slots m) h = Some None.

Lemma mok_empty {T} : mok (@mgr_empty T).
Proof. split; [constructor|intros h []]. Qed.

Lemma allocate_spec {T} (m : mgr T) x : mok m ->
  exists m' h, allocate m x = Some (m', h) /\ mok m' /\ get m h = None /\
    forall k, get m' k = if Nat.eqb k h then Some x else get m k.
Proof.
  intros [ND F]. unfold allocate. destruct (freeq m) as [|i q] eqn:E.
  - exists (Mgr (slots m ++ [Some x]) []), (length (slots m)).
    split; [reflexivity|]. split; [split; [constructor|intros h []]|]. split.
    + unfold get. rewrite (proj2 (nth_error_None _ _)); [reflexivity|lia].
    + intros k. unfold get. cbn [slots]. rewrite nth_app_last.
      destruct (Nat.eqb k (length (slots m))); reflexivity.
  - assert (Hi : nth_error (slots m) i = Some None) by (apply F; now left).
    assert (Li : i < length (slots m)) by (apply nth_error_Some; congruence).
    rewrite (proj2 (Nat.ltb_lt _ _) Li).
    exists (Mgr (set_nth (slots m) i (Some x)) q), i. split; [reflexivity|].
    inversion ND as [|? ? N1 N2]; subst. split; [|split].
    + split; [exact N2|]. intros h I. cbn [slots freeq] in *.
      rewrite set_nth_other by (intros ->; contradiction). apply F. now right.
    + unfold get. now rewrite Hi.
    + intros k. unfold get. cbn [slots]. destruct (Nat.eqb_spec k i) as [->|D].
      * now rewrite set_nth_same.
      * now rewrite set_nth_other by auto.
Qed.

Lemma get_lt {T} (m : mgr T) h x : get m h = Some x -> h < length (slots m).
Proof. unfold get. intros H. apply nth_error_Some. intros E. rewrite E in H. discriminate. Qed.

Lemma get_slot {T} (m : mgr T) h x : get m h = Some x -> nth_error (slots m) h = Some (Some x).
Proof. unfold get. destruct (nth_error _ h) as [[y|]|]; congruence. Qed.

Lemma put_spec {T} (m : mgr T) h y x : mok m -> get m h = Some y ->
  exists m', put m h x = Some m' /\ mok m' /\
    forall k, get m' k = if Nat.eqb k h then Some x else get m k.
Proof.
  intros [ND F] G. unfold put. rewrite G. eexists. split; [reflexivity|]. split.
  - split; [exact ND|]. cbn [slots freeq]. intros k I.
    rewrite set_nth_other; [now apply F|]. intros ->. apply get_slot in G.
    rewrite (F k I) in G. discriminate.
  - intros k. unfold get at 1. cbn [slots]. destruct (Nat.eqb_spec k h) as [->|D].
    + rewrite set_nth_same; [reflexivity|]. eapply get_lt; eassumption.
    + now rewrite set_nth_other by auto.
Qed.

Lemma erase_spec {T} (m : mgr T) h y : mok m -> get m h = Some y ->
  exists m', erase m h = Some m' /\ mok m' /\
    forall k, get m' k = if Nat.eqb k h then None else get m k.
Proof.
  intros [ND F] G. unfold erase. rewrite G. eexists. split; [reflexivity|].
  pose proof (get_slot _ _ _ G) as Gs. pose proof (get_lt _ _ _ G) as Gl. split.
  - split; cbn [slots freeq].
    + apply (Permutation_NoDup (l := h :: freeq m)).
      * apply Permutation_cons_append.
      * constructor; [|exact ND]. intros I. rewrite (F h I) in Gs. discriminate.
    + intros k I. apply in_app_iff in I. destruct (Nat.eq_dec h k) as [->|D].
      * now apply set_nth_same.
      * rewrite set_nth_other by auto. destruct I as [I|[E|[]]]; [now apply F|congruence].
  - intros k. unfold get at 1. cbn [slots]. destruct (Nat.eqb_spec k h) as [->|D].
    + now rewrite set_nth_same.
    + now rewrite set_nth_other by auto.
Qed.

Lemma valid_get {T} (m : mgr T) h : valid m h = match get m h with Some _ => true | None => false end.
Proof. unfold valid, get. destruct (nth_error _ h) as [[y|]|]; reflexivity. Qed.

(** * By pointer *)

(** Ownership: slot [h] of manager [m] holds address [a]. *)
Definition owns {T} (p : pool T) (m h a : nat) : Prop :=
  exists sl q, mgrs p m = Some (sl, q) /\ nth_error sl h = Some (Some a).

Record pok {T} (p : pool T) : Prop := {
  pok_free : forall m sl q, mgrs p m = Some (sl, q) ->
    NoDup q /\ forall h, In h q -> nth_error sl h = Some None;
  pok_live : forall m h a, owns p m h a -> a < nobj p /\ objs p a <> None;
  pok_uniq : forall m h m' h' a, owns p m h a -> owns p m' h' a -> m = m' /\ h = h';
  pok_mgr : forall m, m < nmgr p <-> mgrs p m <> None
}.

Lemma pok_empty {T} : pok (@pool_empty T).
Proof.
  constructor; cbn.
  - discriminate.
  - intros m h a (sl & q & E & _). discriminate.
  - intros m h m' h' a (sl & q & E & _). discriminate.
  - intros m. split; [lia|congruence].
Qed.

Lemma hread_owns {T} (p : pool T) m h a : owns p m h a -> hread p m h = objs p a.
Proof. intros (sl & q & E & H). unfold hread. now rewrite E, H. Qed.

Lemma hread_none {T} (p : pool T) m h : (forall a, ~ owns p m h a) -> hread p m h = None.
Proof.
  intros H. unfold hread. destruct (mgrs p m) as [[sl q]|] eqn:E; [|reflexivity].
  destruct (nth_error sl h) as [[a|]|] eqn:N; [|reflexivity|reflexivity].
  exfalso. apply (H a). exists sl, q. auto.
Qed.

Lemma owns_dec {T} (p : pool T) m h : (exists a, owns p m h a) \/ (forall a, ~ owns p m h a).
Proof.
  unfold owns. destruct (mgrs p m) as [[sl q]|] eqn:E.
  - destruct (nth_error sl h) as [[a|]|] eqn:N.
    + left. exists a, sl, q. auto.
    + right. intros a (sl' & q' & E' & N'). inversion E'; subst. congruence.
    + right. intros a (sl' & q' & E' & N'). inversion E'; subst. congruence.
  - right. intros a (sl' & q' & E' & N'). discriminate.
Qed.

(** Two pools with corresponding ownership read the same. *)
Lemma hread_ext {T} (p p' : pool T) m h m' h' :
  (forall a, owns p m h a -> exists a', owns p' m' h' a' /\ objs p' a' = objs p a) ->
  ((forall a, ~ owns p m h a) -> forall a, ~ owns p' m' h' a) ->
  hread p' m' h' = hread p m h.
Proof.
  intros H1 H2. destruct (owns_dec p m h) as [(a & O)|N].
  - destruct (H1 a O) as (a' & O' & E). rewrite (hread_owns _ _ _ _ O), (hread_owns _ _ _ _ O').
    exact E.
  - rewrite (hread_none _ _ _ N). apply hread_none. apply H2. exact N.
Qed.

(** The copy loop. *)
Lemma copy_slots_spec {T} : forall sl (p : pool T),
  (forall h a, nth_error sl h = Some (Some a) -> a < nobj p) ->
  let '(p1, sl1) := copy_slots p sl in
  mgrs p1 = mgrs p /\ nmgr p1 = nmgr p /\ nobj p <= nobj p1 /\
  (forall a, a < nobj p -> objs p1 a = objs p a) /\
  length sl1 = length sl /\
  (forall h, nth_error sl1 h = Some None <-> nth_error sl h = Some None) /\
  (forall h a, nth_error sl h = Some (Some a) ->
     exists a', nth_error sl1 h = Some (Some a') /\ nobj p <= a' < nobj p1 /\ objs p1 a' = objs p a) /\
  (forall h h' a, nth_error sl1 h = Some (Some a) -> nth_error sl1 h' = Some (Some a) -> h = h') /\
  (forall h a', nth_error sl1 h = Some (Some a') -> nobj p <= a' < nobj p1 /\
     exists a, nth_error sl h = Some (Some a)).
Proof.
  induction sl as [|o sl IH]; intros p H; cbn [copy_slots].
  - split; [reflexivity|]. split; [reflexivity|]. split; [lia|]. split; [reflexivity|].
    split; [reflexivity|]. split; [reflexivity|].
    split; [intros [|h] a E; discriminate|].
    split; [intros [|h] h' a E; discriminate|intros [|h] a E; discriminate].
  - destruct o as [a0|].
    + assert (Ha0 : a0 < nobj p) by (apply (H 0); reflexivity).
      set (p0 := Pool (upd (objs p) (nobj p) (objs p a0)) (S (nobj p)) (mgrs p) (nmgr p)).
      specialize (IH p0). destruct (copy_slots p0 sl) as [p1 sl1].
      destruct IH as (A & B & C & D & E & F & G & I & J).
      { intros h a E. cbn [p0 nobj]. pose proof (H (S h) a E). lia. }
      cbn [p0 mgrs nmgr nobj objs] in A, B, C, D, G, J.
      assert (D' : forall a, a < nobj p -> objs p1 a = objs p a).
      { intros a La. rewrite D by lia. apply upd_other. lia. }
      split; [exact A|]. split; [exact B|]. split; [lia|]. split; [exact D'|].
      split; [cbn; lia|]. split; [|split; [|split]].
      * intros [|h]; cbn; [split; discriminate|apply F].
      * intros [|h] a N; cbn in N |- *.
        -- inversion N; subst a0. exists (nobj p). split; [reflexivity|]. split; [lia|].
           rewrite D by lia. apply upd_same.
        -- destruct (G h a N) as (a' & N' & L & Q). exists a'. split; [exact N'|].
           split; [lia|]. rewrite Q. apply upd_other. pose proof (H (S h) a N). lia.
      * intros [|h] [|h'] a N N'; cbn in N, N'; auto.
        -- inversion N; subst a. destruct (J h' _ N') as [L _]. lia.
        -- inversion N'; subst a. destruct (J h _ N) as [L _]. lia.
        -- f_equal. exact (I h h' a N N').
      * intros [|h] a' N; cbn in N |- *.
        -- inversion N; subst. split; [lia|]. exists a0. reflexivity.
        -- destruct (J h a' N) as [L (a & Q)]. split; [lia|]. exists a. exact Q.
    + specialize (IH p). destruct (copy_slots p sl) as [p1 sl1].
      destruct IH as (A & B & C & D & E & F & G & I & J).
      { intros h a E. apply (H (S h) a E). }
      split; [exact A|]. split; [exact B|]. split; [exact C|]. split; [exact D|].
      split; [cbn; lia|]. split; [|split; [|split]].
      * intros [|h]; cbn; [tauto|apply F].
      * intros [|h] a N; cbn in N |- *; [discriminate|apply G; exact N].
      * intros [|h] [|h'] a N N'; cbn in N, N'; auto; try discriminate.
        f_equal. exact (I h h' a N N').
      * intros [|h] a' N; cbn in N |- *; [discriminate|apply J; exact N].
Qed.

Lemma free_slots_spec {T} : forall l (f : nat -> option T) a,
  free_slots f l a = if existsb (fun o => match o with Some b => Nat.eqb b a | None => false end) l
                     then None else f a.
Proof.
  induction l as [|o l IH]; intros f a; cbn [free_slots fold_left existsb]; [reflexivity|].
  unfold free_slots in IH. rewrite IH. destruct o as [b|]; cbn [orb]; [|reflexivity].
  unfold upd. rewrite (Nat.eqb_sym b a).
  destruct (existsb _ l); [now rewrite orb_true_r|]. rewrite orb_false_r. reflexivity.
Qed.

Lemma owns_with {T} (p : pool T) m v m' h a :
  owns (with_mgr p m v) m' h a <->
  (m' = m /\ nth_error (fst v) h = Some (Some a)) \/ (m' <> m /\ owns p m' h a).
Proof.
  unfold owns, with_mgr; cbn [mgrs]. destruct (Nat.eq_dec m' m) as [->|D].
  - rewrite upd_same. destruct v as [sl q]. split.
    + intros (sl' & q' & E & N). inversion E; subst. left. auto.
    + intros [[_ N]|[C _]]; [|congruence]. exists sl, q. auto.
  - rewrite upd_other by auto. split; [intros H; right; auto|].
    intros [[C _]|[_ H]]; [congruence|exact H].
Qed.

From Verif Require Import S_Heap.

Definition agrees {T} (p : pool T) (s : store T) : Prop := forall m h, hread p m h = s m h.

Lemma hread_with {T} (p : pool T) m v m' h :
  hread (with_mgr p m v) m' h =
  if Nat.eqb m' m then match nth_error (fst v) h with Some (Some a) => objs p a | _ => None end
  else hread p m' h.
Proof.
  unfold hread, with_mgr; cbn [mgrs objs]. unfold upd.
  destruct (Nat.eqb m' m); [|reflexivity]. destruct v; reflexivity.
Qed.

(** Changing a cell nobody owns, or only [(m0, h0)] owns. *)
Lemma hread_upd {T} (p : pool T) (a : nat) (v : option T) n m' h' :
  (forall b, owns p m' h' b -> b <> a) ->
  hread (Pool (upd (objs p) a v) n (mgrs p) (nmgr p)) m' h' = hread p m' h'.
Proof.
  intros H. unfold hread; cbn [mgrs objs]. unfold owns in H.
  destruct (mgrs p m') as [[sl q]|]; [|reflexivity].
  destruct (nth_error sl h') as [[b|]|] eqn:N; [|reflexivity|reflexivity].
  apply upd_other. apply H. exists sl, q. auto.
Qed.

Lemma nth_lt {A} (l : list A) n x : nth_error l n = Some x -> n < length l.
Proof. intros H. apply nth_error_Some. congruence. Qed.

Lemma hstep_new {T} (p p' : pool T) r : pok p -> hstep p HNew = Some (p', r) ->
  pok p' /\ r = RMgr (nmgr p) /\ (forall h, hread p (nmgr p) h = None) /\
  forall m h, hread p' m h = hread p m h.
Proof.
  intros K E. cbn [hstep] in E. inversion E; subst; clear E.
  assert (Nn : mgrs p (nmgr p) = None).
  { destruct (mgrs p (nmgr p)) eqn:Q; [|reflexivity]. exfalso.
    assert (nmgr p < nmgr p) by (apply (pok_mgr p K); congruence). lia. }
  assert (O : forall m h a,
    owns (Pool (objs p) (nobj p) (upd (mgrs p) (nmgr p) (Some ([], []))) (S (nmgr p))) m h a ->
    owns p m h a).
  { intros m h a (sl & q & Q & N). cbn [mgrs] in Q. unfold upd in Q.
    destruct (Nat.eqb_spec m (nmgr p)) as [->|D].
    - inversion Q; subst. destruct h; discriminate.
    - exists sl, q. auto. }
  split; [|split; [reflexivity|split]].
  - constructor; cbn [mgrs nobj objs nmgr].
    + intros m sl q Q. unfold upd in Q. destruct (Nat.eqb_spec m (nmgr p)) as [->|D].
      * inversion Q; subst. split; [constructor|intros h []].
      * apply (pok_free p K m sl q Q).
    + intros m h a H. apply O in H. apply (pok_live p K m h a H).
    + intros m h m' h' a H H'. apply O in H, H'. apply (pok_uniq p K m h m' h' a H H').
    + intros m. unfold upd. destruct (Nat.eqb_spec m (nmgr p)) as [->|D].
      * split; [discriminate|lia].
      * rewrite <- (pok_mgr p K). lia.
  - intros h. unfold hread. now rewrite Nn.
  - intros m h. unfold hread. cbn [mgrs objs]. unfold upd.
    destruct (Nat.eqb_spec m (nmgr p)) as [->|D]; [|reflexivity].
    rewrite Nn. destruct h; reflexivity.
Qed.

Lemma pok_mgr_with {T} (p : pool T) (f : nat -> option T) n m v v0 :
  (forall k, k < nmgr p <-> mgrs p k <> None) -> mgrs p m = Some v0 ->
  forall k, k < nmgr p <-> mgrs (with_mgr (Pool f n (mgrs p) (nmgr p)) m v) k <> None.
Proof.
  intros H E k. cbn [with_mgr mgrs]. unfold upd. destruct (Nat.eqb_spec k m) as [->|D].
  - rewrite H, E. split; discriminate.
  - apply H.
Qed.

Lemma hstep_alloc {T} (p p' : pool T) m x r : pok p -> hstep p (HAlloc m x) = Some (p', r) ->
  pok p' /\ exists h, r = RHandle h /\ hread p m h = None /\ hvalid p m h = false /\
  forall m' h', hread p' m' h' = at2 (hread p) m h (Some x) m' h'.
Proof.
  intros K E. cbn [hstep] in E. destruct (mgrs p m) as [[sl q]|] eqn:Em; [|discriminate].
  cbv zeta in E. destruct (pok_free p K m sl q Em) as [ND F].
  assert (Fr : forall m' h' a, owns p m' h' a -> a <> nobj p).
  { intros m' h' a O. pose proof (pok_live p K m' h' a O). lia. }
  (* common part: the new slot vector *)
  assert (G : forall sl1 q1 h,
    (forall h', h' <> h -> nth_error sl1 h' = nth_error sl h') ->
    nth_error sl1 h = Some (Some (nobj p)) ->
    (forall a, nth_error sl h <> Some (Some a)) ->
    NoDup q1 -> (forall k, In k q1 -> nth_error sl1 k = Some None) ->
    let p1 := with_mgr (Pool (upd (objs p) (nobj p) (Some x)) (S (nobj p)) (mgrs p) (nmgr p)) m (sl1, q1) in
    pok p1 /\ hread p m h = None /\ hvalid p m h = false /\
    forall m' h', hread p1 m' h' = at2 (hread p) m h (Some x) m' h').
  { intros sl1 q1 h H1 H2 H3 H4 H5 p1.
    assert (O : forall m' h' a, owns p1 m' h' a ->
        (m' = m /\ h' = h /\ a = nobj p) \/ (owns p m' h' a /\ ~ (m' = m /\ h' = h))).
    { intros m' h' a H. unfold p1 in H. apply owns_with in H. cbn [fst] in H.
      destruct H as [[-> N]|[D (sl0 & q0 & Q0 & N0)]].
      - destruct (Nat.eq_dec h' h) as [->|D].
        + left. rewrite H2 in N. inversion N. auto.
        + right. split; [|intros [_ C]; auto]. rewrite H1 in N by auto. exists sl, q. auto.
      - right. split; [exists sl0, q0; auto|]. intros [C _]; auto. }
    split; [|split; [|split]].
    - constructor.
      + intros m' sl' q' Q. unfold p1 in Q. cbn [with_mgr mgrs] in Q. unfold upd in Q.
        destruct (Nat.eqb_spec m' m) as [->|D].
        * inversion Q; subst. auto.
        * apply (pok_free p K m' sl' q' Q).
      + intros m' h' a H. apply O in H. unfold p1. cbn [with_mgr nobj objs].
        destruct H as [(-> & -> & ->)|[H _]].
        * split; [lia|]. rewrite upd_same. discriminate.
        * destruct (pok_live p K m' h' a H) as [L V]. split; [lia|].
          rewrite upd_other by lia. exact V.
      + intros a1 h1 a2 h2 a H H'. apply O in H, H'.
        destruct H as [(-> & -> & ->)|[H D]], H' as [(-> & -> & Q)|[H' D']]; auto.
        * exfalso. apply (Fr _ _ _ H'). reflexivity.
        * exfalso. apply (Fr _ _ _ H). exact Q.
        * apply (pok_uniq p K a1 h1 a2 h2 a H H').
      + apply (pok_mgr_with p _ _ m _ (sl, q)); [apply (pok_mgr p K)|exact Em].
    - unfold hread. rewrite Em. destruct (nth_error sl h) as [[a|]|] eqn:Q; auto.
      exfalso. apply (H3 a). reflexivity.
    - unfold hvalid. rewrite Em. destruct (nth_error sl h) as [[a|]|] eqn:Q; auto.
      exfalso. apply (H3 a). reflexivity.
    - intros m' h'. unfold p1. rewrite hread_with. cbn [fst objs].
      unfold at2. destruct (Nat.eqb_spec m' m) as [->|D]; cbn [andb].
      + destruct (Nat.eqb_spec h' h) as [->|D'].
        * rewrite H2. apply upd_same.
        * rewrite H1 by auto. unfold hread. rewrite Em.
          destruct (nth_error sl h') as [[a|]|] eqn:Q; auto. apply upd_other.
          apply (Fr m h' a). exists sl, q. auto.
      + apply hread_upd. apply Fr. }
  destruct q as [|i q].
  - inversion E; subst; clear E.
    destruct (G (sl ++ [Some (nobj p)]) [] (length sl)) as (A & B & C & D).
    + intros h' D. rewrite nth_app_last. destruct (Nat.eqb_spec h' (length sl)); congruence.
    + rewrite nth_app_last. now rewrite Nat.eqb_refl.
    + intros a Q. apply nth_lt in Q. lia.
    + constructor.
    + intros k [].
    + split; [exact A|]. exists (length sl). auto.
  - destruct (i <? length sl) eqn:L; [|discriminate]. apply Nat.ltb_lt in L.
    inversion E; subst; clear E. inversion ND as [|? ? N1 N2]; subst.
    destruct (G (set_nth sl i (Some (nobj p))) q i) as (A & B & C & D).
    + intros h' D. apply set_nth_other. auto.
    + now apply set_nth_same.
    + intros a Q. rewrite (F i (or_introl eq_refl)) in Q. discriminate.
    + exact N2.
    + intros k I. rewrite set_nth_other by (intros ->; contradiction). apply F. now right.
    + split; [exact A|]. exists i. auto.
Qed.

Lemma hstep_alloc_ok {T} (p : pool T) m x : pok p -> mgrs p m <> None ->
  hstep p (HAlloc m x) <> None.
Proof.
  intros K E. cbn [hstep]. destruct (mgrs p m) as [[sl q]|] eqn:Em; [|congruence].
  cbv zeta. destruct q as [|i q]; [discriminate|].
  destruct (pok_free p K m sl _ Em) as [_ F].
  assert (Q : nth_error sl i = Some None) by (apply F; now left).
  apply nth_lt in Q. apply Nat.ltb_lt in Q. rewrite Q. discriminate.
Qed.

Lemma hstep_set {T} (p p' : pool T) m h x r : pok p -> hstep p (HSet m h x) = Some (p', r) ->
  pok p' /\ hvalid p m h = true /\
  forall m' h', hread p' m' h' = at2 (hread p) m h (Some x) m' h'.
Proof.
  intros K E. cbn [hstep] in E. destruct (mgrs p m) as [[sl q]|] eqn:Em; [|discriminate].
  destruct (nth_error sl h) as [[a|]|] eqn:N; try discriminate.
  inversion E; subst; clear E.
  assert (Oa : owns p m h a) by (exists sl, q; auto).
  set (p1 := Pool (upd (objs p) a (Some x)) (nobj p) (mgrs p) (nmgr p)).
  assert (O : forall m' h' b, owns p1 m' h' b <-> owns p m' h' b) by (intros; reflexivity).
  split; [|split].
  - constructor.
    + apply (pok_free p K).
    + intros m' h' b H. apply O in H. destruct (pok_live p K m' h' b H) as [L V].
      split; [exact L|]. cbn [p1 objs]. unfold upd. destruct (Nat.eqb b a); [discriminate|exact V].
    + intros m1 h1 m2 h2 b H H'. apply O in H, H'. apply (pok_uniq p K m1 h1 m2 h2 b H H').
    + apply (pok_mgr p K).
  - unfold hvalid. rewrite Em, N. reflexivity.
  - intros m' h'. unfold at2. destruct (Nat.eqb m' m && Nat.eqb h' h) eqn:Q.
    + apply andb_prop in Q. destruct Q as [Q1 Q2]. apply Nat.eqb_eq in Q1, Q2. subst.
      rewrite (hread_owns p1 m h a Oa). apply upd_same.
    + apply hread_upd. intros b Ob ->. destruct (pok_uniq p K m' h' m h a Ob Oa) as [-> ->].
      rewrite !Nat.eqb_refl in Q. discriminate.
Qed.

Lemma hstep_erase {T} (p p' : pool T) m h r : pok p -> hstep p (HErase m h) = Some (p', r) ->
  pok p' /\ hvalid p m h = true /\
  forall m' h', hread p' m' h' = at2 (hread p) m h None m' h'.
Proof.
  intros K E. cbn [hstep] in E. destruct (mgrs p m) as [[sl q]|] eqn:Em; [|discriminate].
  destruct (nth_error sl h) as [[a|]|] eqn:N; try discriminate.
  inversion E; subst; clear E.
  assert (Oa : owns p m h a) by (exists sl, q; auto).
  destruct (pok_free p K m sl q Em) as [ND F].
  pose proof (nth_lt _ _ _ N) as Lh.
  set (p1 := with_mgr _ m _).
  assert (O : forall m' h' b, owns p1 m' h' b -> owns p m' h' b /\ ~ (m' = m /\ h' = h)).
  { intros m' h' b H. unfold p1 in H. apply owns_with in H. cbn [fst] in H.
    destruct H as [[-> Q]|[D H]].
    - destruct (Nat.eq_dec h' h) as [->|D].
      + rewrite set_nth_same in Q by auto. discriminate.
      + rewrite set_nth_other in Q by auto. split; [exists sl, q; auto|intros [_ C]; auto].
    - split; [exact H|intros [C _]; auto]. }
  split; [|split].
  - constructor.
    + intros m' sl' q' Q. unfold p1 in Q. cbn [with_mgr mgrs] in Q. unfold upd in Q.
      destruct (Nat.eqb_spec m' m) as [->|D]; [|apply (pok_free p K m' sl' q' Q)].
      inversion Q; subst. split.
      * apply (Permutation_NoDup (l := h :: q)); [apply Permutation_cons_append|].
        constructor; [|exact ND]. intros I. rewrite (F h I) in N. discriminate.
      * intros k I. apply in_app_iff in I. destruct (Nat.eq_dec h k) as [->|D].
        -- now apply set_nth_same.
        -- rewrite set_nth_other by auto. destruct I as [I|[C|[]]]; [now apply F|congruence].
    + intros m' h' b H. apply O in H. destruct H as [H D].
      destruct (pok_live p K m' h' b H) as [L V]. split; [exact L|].
      cbn [p1 with_mgr objs]. rewrite upd_other; [exact V|].
      intros ->. apply D. apply (pok_uniq p K m' h' m h a H Oa).
    + intros m1 h1 m2 h2 b H H'. apply O in H, H'.
      apply (pok_uniq p K m1 h1 m2 h2 b (proj1 H) (proj1 H')).
    + apply (pok_mgr_with p _ _ m _ (sl, q)); [apply (pok_mgr p K)|exact Em].
  - unfold hvalid. rewrite Em, N. reflexivity.
  - intros m' h'. unfold p1. rewrite hread_with. cbn [fst objs]. unfold at2.
    destruct (Nat.eqb_spec m' m) as [->|D]; cbn [andb].
    + destruct (Nat.eqb_spec h' h) as [->|D'].
      * now rewrite set_nth_same.
      * rewrite set_nth_other by auto. unfold hread. rewrite Em.
        destruct (nth_error sl h') as [[b|]|] eqn:Q; auto. apply upd_other. intros ->.
        destruct (pok_uniq p K m h' m h a) as [_ C]; auto. exists sl, q. auto.
    + apply hread_upd. intros b Ob ->. destruct (pok_uniq p K m' h' m h a Ob Oa). auto.
Qed.

Lemma hstep_clone {T} (p p' : pool T) m r : pok p -> hstep p (HClone m) = Some (p', r) ->
  pok p' /\ r = RMgr (nmgr p) /\ (forall h, hread p (nmgr p) h = None) /\
  forall m' h, hread p' m' h = if Nat.eqb m' (nmgr p) then hread p m h else hread p m' h.
Proof.
  intros K E. cbn [hstep] in E. destruct (mgrs p m) as [[sl q]|] eqn:Em; [|discriminate].
  pose proof (copy_slots_spec sl p) as CS. destruct (copy_slots p sl) as [p1 sl1].
  destruct CS as (A & B & C & D & L & F & G & I & J).
  { intros h a N. apply (pok_live p K m h a). exists sl, q. auto. }
  inversion E; subst; clear E. rewrite A, B.
  assert (Nn : mgrs p (nmgr p) = None).
  { destruct (mgrs p (nmgr p)) eqn:Q; [|reflexivity]. exfalso.
    assert (nmgr p < nmgr p) by (apply (pok_mgr p K); congruence). lia. }
  set (p2 := Pool _ _ _ _).
  assert (O : forall m' h a, owns p2 m' h a <->
      (m' = nmgr p /\ nth_error sl1 h = Some (Some a)) \/ (m' <> nmgr p /\ owns p m' h a)).
  { intros m' h a. unfold owns, p2; cbn [mgrs]. destruct (Nat.eq_dec m' (nmgr p)) as [->|Q].
    - rewrite upd_same. split.
      + intros (sl' & q' & H & N). inversion H; subst. auto.
      + intros [[_ N]|[X _]]; [|congruence]. exists sl1, q. auto.
    - rewrite upd_other by auto. split; [auto|]. intros [[X _]|[_ X]]; [congruence|exact X]. }
  split; [|split; [reflexivity|split]].
  - constructor.
    + intros m' sl' q' Q. unfold p2 in Q. cbn [mgrs] in Q. unfold upd in Q.
      destruct (Nat.eqb_spec m' (nmgr p)) as [->|Dm].
      * inversion Q; subst. destruct (pok_free p K m sl q' Em) as [ND Fr].
        split; [exact ND|]. intros h Ih. apply F. apply Fr. exact Ih.
      * apply (pok_free p K m' sl' q' Q).
    + intros m' h a H. apply O in H. unfold p2. cbn [nobj objs].
      destruct H as [[-> N]|[Dm H]].
      * destruct (J h a N) as [La (a0 & N0)]. split; [lia|].
        destruct (G h a0 N0) as (a' & N' & _ & Q). rewrite N in N'. inversion N'; subst a'.
        rewrite Q. apply (pok_live p K m h a0). exists sl, q. auto.
      * destruct (pok_live p K m' h a H) as [La V]. split; [lia|]. rewrite D by lia. exact V.
    + intros m1 h1 m2 h2 a H H'. apply O in H, H'.
      destruct H as [[-> N]|[D1 H]], H' as [[-> N']|[D2 H']].
      * split; [reflexivity|]. apply (I h1 h2 a N N').
      * exfalso. pose proof (J h1 a N). pose proof (pok_live p K m2 h2 a H'). lia.
      * exfalso. pose proof (J h2 a N'). pose proof (pok_live p K m1 h1 a H). lia.
      * apply (pok_uniq p K m1 h1 m2 h2 a H H').
    + intros k. unfold p2; cbn [nmgr mgrs]. unfold upd.
      destruct (Nat.eqb_spec k (nmgr p)) as [->|Dk].
      * split; [discriminate|lia].
      * rewrite <- (pok_mgr p K). lia.
  - intros h. unfold hread. now rewrite Nn.
  - intros m' h. destruct (Nat.eqb_spec m' (nmgr p)) as [->|Dm].
    + unfold hread, p2; cbn [mgrs objs]. rewrite upd_same, Em.
      destruct (nth_error sl h) as [[a|]|] eqn:N.
      * destruct (G h a N) as (a' & N' & _ & Q). rewrite N'. exact Q.
      * rewrite (proj2 (F h) N). reflexivity.
      * destruct (nth_error sl1 h) as [[a|]|] eqn:N1; auto.
        destruct (J h a N1) as [_ (a0 & Q)]. congruence.
    + unfold hread, p2; cbn [mgrs objs]. rewrite upd_other by auto.
      destruct (mgrs p m') as [[sl' q']|] eqn:Q; [|reflexivity].
      destruct (nth_error sl' h) as [[a|]|] eqn:N; auto. apply D.
      apply (pok_live p K m' h a). exists sl', q'. auto.
Qed.

Lemma hstep_swap {T} (p p' : pool T) a b r : pok p -> hstep p (HSwap a b) = Some (p', r) ->
  pok p' /\
  forall m h, hread p' m h = if Nat.eqb m a then hread p b h
                             else if Nat.eqb m b then hread p a h else hread p m h.
Proof.
  intros K E. cbn [hstep] in E.
  destruct (mgrs p a) as [va|] eqn:Ea; [|discriminate].
  destruct (mgrs p b) as [vb|] eqn:Eb; [|discriminate].
  inversion E; subst; clear E. set (p1 := with_mgr _ b va).
  pose (pi := fun m => if Nat.eqb m a then b else if Nat.eqb m b then a else m).
  assert (M : forall m, mgrs p1 m = mgrs p (pi m)).
  { intros m. unfold p1, pi. cbn [with_mgr mgrs]. unfold upd.
    destruct (Nat.eqb_spec m b) as [->|Db].
    - destruct (Nat.eqb_spec b a) as [->|Da]; congruence.
    - destruct (Nat.eqb_spec m a) as [->|Da]; congruence. }
  assert (Inj : forall m m', pi m = pi m' -> m = m').
  { intros m m'. unfold pi. destruct (Nat.eqb_spec m a), (Nat.eqb_spec m b),
      (Nat.eqb_spec m' a), (Nat.eqb_spec m' b); congruence. }
  assert (O : forall m h x, owns p1 m h x <-> owns p (pi m) h x).
  { intros m h x. unfold owns. rewrite M. reflexivity. }
  split.
  - constructor.
    + intros m sl q Q. rewrite M in Q. apply (pok_free p K _ sl q Q).
    + intros m h x H. apply O in H. apply (pok_live p K _ h x H).
    + intros m1 h1 m2 h2 x H H'. apply O in H, H'.
      destruct (pok_uniq p K _ h1 _ h2 x H H') as [Q1 Q2]. split; auto.
    + intros m. rewrite M. cbn [p1 with_mgr nmgr]. rewrite <- (pok_mgr p K).
      assert (La : a < nmgr p) by (apply (pok_mgr p K); congruence).
      assert (Lb : b < nmgr p) by (apply (pok_mgr p K); congruence).
      unfold pi. destruct (Nat.eqb_spec m a), (Nat.eqb_spec m b); subst; tauto.
  - intros m h. unfold hread. rewrite M. unfold pi.
    destruct (Nat.eqb m a); [reflexivity|]. destruct (Nat.eqb m b); reflexivity.
Qed.

Lemma existsb_owner (l : list (option nat)) a :
  existsb (fun o => match o with Some b => Nat.eqb b a | None => false end) l = true <->
  exists h, nth_error l h = Some (Some a).
Proof.
  rewrite existsb_exists. split.
  - intros ([b|] & I & Q); [|discriminate]. apply Nat.eqb_eq in Q. subst b.
    apply In_nth_error in I. exact I.
  - intros (h & N). exists (Some a). split; [eapply nth_error_In; eassumption|].
    apply Nat.eqb_refl.
Qed.

Lemma hstep_assign {T} (p p' : pool T) d m r : pok p -> hstep p (HAssign d m) = Some (p', r) ->
  pok p' /\
  forall m' h, hread p' m' h = if Nat.eqb m' d then hread p m h else hread p m' h.
Proof.
  intros K E. cbn [hstep] in E.
  destruct (mgrs p d) as [[dl dq]|] eqn:Ed; [|discriminate].
  destruct (mgrs p m) as [[sl q]|] eqn:Em; [|discriminate].
  destruct (Nat.eqb_spec d m) as [->|Dd].
  - inversion E; subst. split; [exact K|]. intros m' h.
    destruct (Nat.eqb_spec m' m) as [->|]; reflexivity.
  - pose proof (copy_slots_spec sl p) as CS. destruct (copy_slots p sl) as [p1 sl1].
    destruct CS as (A & B & C & D & L & F & G & I & J).
    { intros h a N. apply (pok_live p K m h a). exists sl, q. auto. }
    inversion E; subst; clear E. rewrite A, B. set (p2 := with_mgr _ d _).
    assert (O : forall m' h a, owns p2 m' h a <->
      (m' = d /\ nth_error sl1 h = Some (Some a)) \/ (m' <> d /\ owns p m' h a)).
    { intros m' h a. unfold p2. rewrite owns_with. reflexivity. }
    assert (Dl : forall a, (exists h, nth_error dl h = Some (Some a)) -> a < nobj p).
    { intros a (h & N). apply (pok_live p K d h a). exists dl, dq. auto. }
    assert (Ob : forall m' h a, m' <> d -> owns p m' h a ->
                 objs p2 a = objs p a).
    { intros m' h a Dm H. unfold p2. cbn [with_mgr objs]. rewrite free_slots_spec.
      destruct (existsb _ dl) eqn:X.
      - apply existsb_owner in X. destruct X as (h' & N). exfalso.
        destruct (pok_uniq p K m' h d h' a H) as [Q _]; auto. exists dl, dq. auto.
      - apply D. apply (pok_live p K m' h a H). }
    assert (Os : forall a, nobj p <= a -> objs p2 a = objs p1 a).
    { intros a La. unfold p2. cbn [with_mgr objs]. rewrite free_slots_spec.
      destruct (existsb _ dl) eqn:X; [|reflexivity]. apply existsb_owner in X.
      apply Dl in X. lia. }
    split.
    + constructor.
      * intros m' sl' q' Q. unfold p2 in Q. cbn [with_mgr mgrs] in Q. unfold upd in Q.
        destruct (Nat.eqb_spec m' d) as [->|Dm].
        -- inversion Q; subst. destruct (pok_free p K m sl q' Em) as [ND Fr].
           split; [exact ND|]. intros h Ih. apply F. apply Fr. exact Ih.
        -- apply (pok_free p K m' sl' q' Q).
      * intros m' h a H. apply O in H. cbn [p2 with_mgr nobj].
        destruct H as [[-> N]|[Dm H]].
        -- destruct (J h a N) as [La (a0 & N0)]. split; [lia|]. rewrite Os by lia.
           destruct (G h a0 N0) as (a' & N' & _ & Q). rewrite N in N'. inversion N'; subst a'.
           rewrite Q. apply (pok_live p K m h a0). exists sl, q. auto.
        -- destruct (pok_live p K m' h a H) as [La V]. split; [lia|].
           rewrite (Ob m' h a Dm H). exact V.
      * intros m1 h1 m2 h2 a H H'. apply O in H, H'.
        destruct H as [[-> N]|[D1 H]], H' as [[-> N']|[D2 H']].
        -- split; [reflexivity|]. apply (I h1 h2 a N N').
        -- exfalso. pose proof (J h1 a N). pose proof (pok_live p K m2 h2 a H'). lia.
        -- exfalso. pose proof (J h2 a N'). pose proof (pok_live p K m1 h1 a H). lia.
        -- apply (pok_uniq p K m1 h1 m2 h2 a H H').
      * apply (pok_mgr_with p _ _ d _ (dl, dq)); [apply (pok_mgr p K)|exact Ed].
    + intros m' h. destruct (Nat.eqb_spec m' d) as [->|Dm].
      * unfold hread at 2. rewrite Em.
        destruct (nth_error sl h) as [[a|]|] eqn:N.
        -- destruct (G h a N) as (a' & N' & La & Q).
           rewrite (hread_owns p2 d h a'); [|apply O; left; auto]. rewrite Os by lia. exact Q.
        -- apply hread_none. intros a X. apply O in X. destruct X as [[_ X]|[X _]]; [|congruence].
           rewrite (proj2 (F h) N) in X. discriminate.
        -- apply hread_none. intros a X. apply O in X. destruct X as [[_ X]|[X _]]; [|congruence].
           destruct (J h a X) as [_ (a0 & Q)]. congruence.
      * apply hread_ext.
        -- intros a H. exists a. split; [apply O; right; auto|]. apply (Ob m' h a Dm H).
        -- intros H a X. apply O in X. destruct X as [[X _]|[_ X]]; [congruence|].
           apply (H a X).
Qed.

(** One step, against the store. *)
Lemma hstep_spec {T} (p p' : pool T) o r : pok p -> hstep p o = Some (p', r) ->
  pok p' /\ fresh_result (hread p) o r /\
  forall m h, hread p' m h = store_step (hread p) o r m h.
Proof.
  intros K E. destruct o.
  - destruct (hstep_new p p' r K E) as (A & -> & B & C). split; [exact A|]. split; [exact B|exact C].
  - destruct (hstep_alloc p p' m x r K E) as (A & h & -> & B & C & D).
    split; [exact A|]. split; [exact B|exact D].
  - destruct (hstep_set p p' m h x r K E) as (A & B & C).
    split; [exact A|]. split; [exact Logic.I|]. exact C.
  - destruct (hstep_erase p p' m h r K E) as (A & B & C).
    split; [exact A|]. split; [exact Logic.I|exact C].
  - destruct (hstep_clone p p' m r K E) as (A & -> & B & C).
    split; [exact A|]. split; [exact B|exact C].
  - destruct (hstep_swap p p' a b r K E) as (A & B). split; [exact A|]. split; [exact Logic.I|exact B].
  - destruct (hstep_assign p p' dst src r K E) as (A & B).
    split; [exact A|]. split; [exact Logic.I|exact B].
Qed.

Lemma store_step_ext {T} (s s' : store T) o r :
  (forall m h, s m h = s' m h) -> forall m h, store_step s o r m h = store_step s' o r m h.
Proof.
  intros H m h. destruct o, r; cbn [store_step]; unfold at2; rewrite ?H; auto;
    repeat match goal with |- context [if ?b then _ else _] => destruct b end; auto.
Qed.

Lemma fresh_ext {T} (s s' : store T) o r :
  (forall m h, s m h = s' m h) -> fresh_result s o r -> fresh_result s' o r.
Proof.
  intros H F. destruct o, r; cbn [fresh_result] in *; auto; try (intros h'); rewrite <- H; auto.
Qed.

Lemma hrun_spec {T} : forall ops (p p' : pool T) l s, pok p -> agrees p s ->
  hrun p ops = Some (p', l) ->
  pok p' /\ agrees p' (store_run s l) /\
  forall l1 o r l2, l = l1 ++ (o, r) :: l2 -> fresh_result (store_run s l1) o r.
Proof.
  induction ops as [|o ops IH]; intros p p' l s K A E; cbn [hrun] in E.
  - inversion E; subst. split; [exact K|]. split; [exact A|].
    intros l1 o r l2 Q. destruct l1; discriminate.
  - destruct (hstep p o) as [[p1 x]|] eqn:S; [|discriminate].
    destruct (hrun p1 ops) as [[p2 l']|] eqn:R; [|discriminate]. inversion E; subst; clear E.
    destruct (hstep_spec p p1 o x K S) as (K1 & F1 & A1).
    destruct (IH p1 p' l' (store_step s o x) K1) as (K2 & A2 & F2).
    + intros m h. rewrite A1. apply store_step_ext. exact A.
    + exact R.
    + split; [exact K2|]. split; [exact A2|].
      intros l1 o' r l2 Q. destruct l1 as [|y l1]; cbn [app] in Q; inversion Q; subst.
      * cbn. apply (fresh_ext (hread p)); [exact A|exact F1].
      * cbn [store_run fold_left fst snd]. apply (F2 l1 o' r l2 eq_refl).
Qed.

Lemma pok_reach {T} ops (p : pool T) l : hrun pool_empty ops = Some (p, l) -> pok p.
Proof.
  intros E. apply (hrun_spec ops pool_empty p l (fun _ _ => None) pok_empty); [|exact E].
  intros m h. reflexivity.
Qed.

Lemma hvalid_read {T} (p : pool T) m h : pok p -> (hvalid p m h = true <-> hread p m h <> None).
Proof.
  intros K. unfold hvalid, hread. destruct (mgrs p m) as [[sl q]|] eqn:E.
  - destruct (nth_error sl h) as [[a|]|] eqn:N.
    + split; [|auto]. intros _. apply (pok_live p K m h a). exists sl, q. auto.
    + split; congruence.
    + split; congruence.
  - split; congruence.
Qed.
