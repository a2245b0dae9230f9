(** Proofs for the serialiser: the edge loop and the round trip. *)
From Coq Require Import Ascii String.
From Verif Require Import Base M_Range M_Graph S_Graph P_Graph M_Netlist M_Intern S_Intern P_Intern M_Serial S_Serial P_Serial.

Lemma index_of_seq : forall N k x, k <= x < k + N -> index_of x (seq k N) = x - k.
Proof.
  induction N as [|N IH]; intros k x H; [lia|]. cbn [seq index_of].
  destruct (Nat.eqb_spec k x); [lia|]. rewrite IH by lia. lia.
Qed.
Lemma index_of_nth : forall l x, In x l -> nth (index_of x l) l 0 = x /\ index_of x l < length l.
Proof.
  induction l as [|y l IH]; intros x H; [destruct H|]. cbn [index_of].
  destruct (Nat.eqb_spec y x) as [->|Hn]; [split; [reflexivity|cbn; lia]|].
  destruct H as [->|H]; [congruence|]. destruct (IH x H) as [A B]. split; [exact A|cbn; lia].
Qed.
Lemma nth_index_of l i : NoDup l -> i < length l -> index_of (nth i l 0) l = i.
Proof.
  revert i. induction l as [|y l IH]; intros i ND H; [cbn in H; lia|].
  apply NoDup_cons_iff in ND. destruct ND as [N1 N2]. destruct i as [|i]; cbn [nth index_of].
  - now rewrite Nat.eqb_refl.
  - cbn [length] in H. destruct (Nat.eqb_spec y (nth i l 0)) as [->|].
    + exfalso. apply N1. apply nth_In. lia.
    + rewrite IH by (auto; lia). reflexivity.
Qed.
Lemma map_nth_seq {A} (f : nat -> A) (l : list nat) : map f l = map (fun i => f (nth i l 0)) (seq 0 (length l)).
Proof.
  induction l as [|x l IH]; [reflexivity|]. cbn [length seq map nth]. f_equal.
  rewrite <- seq_shift, map_map. exact IH.
Qed.
Lemma flat_map_nth_seq {A} (f : nat -> list A) (l : list nat) :
  flat_map f l = flat_map (fun i => f (nth i l 0)) (seq 0 (length l)).
Proof. rewrite !flat_map_concat_map. f_equal. apply map_nth_seq. Qed.

Lemma filter_flat_map {A B} (p : B -> bool) (f : A -> list B) l :
  filter p (flat_map f l) = flat_map (fun x => filter p (f x)) l.
Proof. induction l as [|x l IH]; [reflexivity|]. cbn [flat_map]. now rewrite filter_app', IH. Qed.
Lemma flat_map_pick {B} (f : nat -> list B) : forall N k i, k <= i < k + N ->
  flat_map (fun x => if Nat.eqb x i then f x else []) (seq k N) = f i.
Proof.
  induction N as [|N IH]; intros k i H; [lia|]. cbn [seq flat_map].
  destruct (Nat.eqb_spec k i) as [->|Hn].
  - rewrite <- (app_nil_r (f i)) at 2. f_equal.
    assert (G : forall M q, i < q -> flat_map (fun x => if Nat.eqb x i then f x else []) (seq q M) = []).
    { induction M as [|M IHM]; intros q Hq; [reflexivity|]. cbn [seq flat_map].
      destruct (Nat.eqb_spec q i); [lia|]. cbn [app]. apply IHM. lia. }
    apply G. lia.
  - cbn [app]. apply IH. lia.
Qed.

Lemma each_app {S} (f : S -> json -> S * out unit) l1 : forall l2 s s', each f l1 s = (s', Ok tt) ->
  each f (l1 ++ l2) s = each f l2 s'.
Proof.
  induction l1 as [|x l1 IH]; intros l2 s s' H; cbn [each app] in *; [now injection H as <-|].
  destruct (f s x) as [s1 [u| |]]; try discriminate. now apply IH.
Qed.

Lemma put_absent l x : ~ In (fst x) (map fst l) -> put l x = l ++ [x].
Proof.
  induction l as [|y l IH]; intros H; [reflexivity|]. cbn [put app map] in *.
  destruct (Nat.eqb_spec (fst y) (fst x)) as [E|E]; [exfalso; apply H; now left|].
  f_equal. apply IH. intros C. apply H. now right.
Qed.

Section Serial.
Variable cval : Type.
Notation nlg := (nlg cval).

(** The document of one edge from position [a] to [b], given the IDs written. *)
Definition edoc (idp : nat -> Z) (x : nat * (nat * eview)) : json :=
  JObj [(lit "source", JNum (idp (fst x))); (lit "target", JNum (idp (fst (snd x))));
        (lit "edgeKind", JStr (edgeKindToString (vkind (snd (snd x)))));
        (lit "symbol", match vsym (snd (snd x)) with Some s => symbolToJson s | None => JObj [] end);
        (lit "bounds", boundsToJson (vbounds (snd (snd x)))); (lit "disabled", JBool (vdis (snd (snd x))))].

Record EInv (g : nlg) (N : nat) (T : list sym) (E : list edge) (L : nat -> list (nat * eview)) : Prop := {
  ei_rep : Rep (lg g) (MG (seq 0 N) E N (nexte (lg g)));
  ei_tab : forall s, In s (lsyms g) -> In s T;
  ei_sym : forall e i, In e E -> dsym (ledge g (eid e)) = Some i -> i < length (lsyms g);
  ei_view : forall a, a < N -> map (edge_view g) (outs (nst (lg g) a)) = L a }.

(** Everything estep does on a good document. *)
Lemma estep_eq (m : idmap) (g : nlg) idp x a b :
  id_find m (idp (fst x)) = Some a -> id_find m (idp (fst (snd x))) = Some b ->
  in_u64 (idp (fst x)) -> in_u64 (idp (fst (snd x))) ->
  ok_range (vbounds (snd (snd x))) ->
  (forall s, vsym (snd (snd x)) = Some s -> ok_loc (syloc s)) ->
  exists g' p,
    estep m g (edoc idp x) = (g', Ok tt) /\
    lfiles g' = lfiles g /\ lbox g' = lbox g /\ lnode g' = lnode g /\ lid g' = lid g /\
    lg g' = fst (node_addEdge outEdgeIndexThreshold (lg g) a b) /\
    let e := snd (node_addEdge outEdgeIndexThreshold (lg g) a b) in
    ledge g' (eid e) = ED (vkind (snd (snd x))) p (asc (vbounds (snd (snd x)))) (vdis (snd (snd x))) /\
    (forall k, k <> eid e -> ledge g' k = ledge g k) /\
    match vsym (snd (snd x)) with
    | None => p = None /\ lsyms g' = lsyms g
    | Some s => p = Some (snd (seq_intern sypath (lsyms g) s)) /\ lsyms g' = fst (seq_intern sypath (lsyms g) s)
    end.
Proof.
  intros Ha Hb Ia Ib Hr Hs. unfold estep, edoc.
  fields. cbn [bind]. rewrite (getU64_ok _ Ia). fields. cbn [bind]. rewrite (getU64_ok _ Ib). cbn [bind].
  rewrite Ha, Hb. destruct (node_addEdge outEdgeIndexThreshold (lg g) a b) as [gr e] eqn:En.
  fields. cbn [bind getStr]. rewrite edgeKind_codec.
  assert (U : forall k d1 d2 d3 d4 d5, k <> eid e ->
     upd (upd (upd (upd (upd (ledge g) (eid e) d1) (eid e) d2) (eid e) d3) (eid e) d4) (eid e) d5 k = ledge g k).
  { intros. now rewrite !upd_other. }
  destruct (vsym (snd (snd x))) as [s|] eqn:Es.
  - unfold symbolToJson at 1. fields. rewrite (sym_rt s) by auto. cbn [bind].
    cbn [set_edge lfiles lbox lg lnode lid ledge lsyms].
    destruct (seq_intern sypath (lsyms g) s) as [tab i] eqn:Ei.
    cbn [bind]. rewrite (bounds_rt _ Hr). cbn [bind getBool].
    eexists. exists (Some i). split; [reflexivity|].
    cbn [set_edge lfiles lbox lg lnode lid ledge lsyms dkind dsym dbounds ddis fst snd].
    do 5 (split; [reflexivity|]). split; [now rewrite upd_same|]. split; [intros; now apply U|]. auto.
  - cbn [has assoc]. cbn [bind]. rewrite (bounds_rt _ Hr). cbn [bind getBool].
    eexists. exists None. split; [reflexivity|].
    cbn [set_edge lfiles lbox lg lnode lid ledge lsyms dkind dsym dbounds ddis fst snd].
    do 5 (split; [reflexivity|]). split; [now rewrite upd_same|]. split; [intros; now apply U|]. auto.
Qed.

Lemma intern_in T tab s : NoDup (map sypath T) -> (forall r, In r tab -> In r T) -> In s T ->
  let r := seq_intern sypath tab s in
  nth_error (fst r) (snd r) = Some s /\ (forall x, In x (fst r) -> In x T) /\
  (exists y, fst r = tab ++ y) .
Proof.
  intros ND HT Hs. unfold seq_intern. destruct (pos sypath tab (sypath s)) as [i|] eqn:P; cbn [fst snd].
  - apply pos_some in P. destruct P as [r [P1 P2]].
    assert (r = s).
    { assert (In r T) by (apply HT; eapply nth_error_In; eauto). clear P1. revert H P2 Hs ND. clear.
      induction T as [|t T IH]; intros H P2 Hs ND; [destruct H|]. cbn [map] in ND. apply NoDup_cons_iff in ND.
      destruct ND as [N1 N2], H as [<-|H], Hs as [Hs|Hs]; auto; try congruence.
      - exfalso. apply N1. rewrite P2. now apply in_map.
      - exfalso. apply N1. subst t. rewrite <- P2. now apply in_map. }
    subst r. split; [assumption|]. split; [auto|]. exists []. now rewrite app_nil_r.
  - split; [now rewrite nth_error_app2, Nat.sub_diag by lia|]. split.
    + intros y Hy. apply in_app_iff in Hy. destruct Hy as [Hy|[<-|[]]]; auto.
    + now exists [s].
Qed.

Lemma eids_inj E e1 e2 : NoDup (map eid E) -> In e1 E -> In e2 E -> eid e1 = eid e2 -> e1 = e2.
Proof.
  induction E as [|x E IH]; intros ND H1 H2 H; [destruct H1|]. cbn [map] in ND. apply NoDup_cons_iff in ND.
  destruct ND as [N1 N2], H1 as [<-|H1], H2 as [H2|H2]; auto.
  - exfalso. apply N1. rewrite H. now apply in_map.
  - exfalso. apply N1. subst x. rewrite <- H. now apply in_map.
Qed.

Lemma map_put (f f' : edge -> nat * eview) (b : nat) v : forall l e,
  find (to b) l = Some e -> NoDup (map eid l) ->
  (forall x, In x l -> fst (f x) = etgt x) -> f' e = (b, v) ->
  (forall x, In x l -> eid x <> eid e -> f' x = f x) ->
  map f' l = put (map f l) (b, v).
Proof.
  induction l as [|x l IH]; intros e F ND H1 H2 H3; [discriminate|].
  cbn [find map put fst] in *. apply NoDup_cons_iff in ND. destruct ND as [N1 N2].
  rewrite (H1 x (or_introl eq_refl)). unfold to in F at 1. destruct (Nat.eqb (etgt x) b) eqn:Ex.
  - injection F as ->. rewrite H2. f_equal. apply map_ext_in. intros y Hy. apply H3; [now right|].
    intros C. apply N1. rewrite <- C. now apply in_map.
  - f_equal.
    + apply H3; [now left|]. intros C. apply N1. rewrite C. apply in_map. apply find_some in F. tauto.
    + eapply IH; eauto. intros y Hy. apply H1. now right. intros y Hy. apply H3. now right.
Qed.

Definition good (N : nat) (T : list sym) (x : nat * (nat * eview)) : Prop :=
  fst x < N /\ fst (snd x) < N /\ ok_range (vbounds (snd (snd x))) /\
  (forall s, vsym (snd (snd x)) = Some s -> In s T /\ ok_loc (syloc s)).

Lemma edge_step m g N T E L idp x :
  NoDup (map sypath T) ->
  EInv g N T E L -> good N T x ->
  (forall i, i < N -> id_find m (idp i) = Some i /\ in_u64 (idp i)) ->
  exists g' E', estep m g (edoc idp x) = (g', Ok tt) /\
    EInv g' N T E' (upd L (fst x) (put (L (fst x)) (norm_edge (snd x)))) /\
    lfiles g' = lfiles g /\ lbox g' = lbox g /\ lnode g' = lnode g /\ lid g' = lid g.
Proof.
  intros NT I (Ha & Hb & Hr & Hs) Hm.
  destruct x as [a [b v]]. cbn [fst snd] in *.
  destruct (Hm a Ha) as [Ma Ua], (Hm b Hb) as [Mb Ub].
  destruct (estep_eq m g idp (a, (b, v)) a b Ma Mb Ua Ub Hr (fun s H => proj2 (Hs s H)))
    as (g' & p & Est & F1 & F2 & F3 & F4 & F5 & F6 & F7 & F8). cbn [fst snd] in *.
  destruct I as [R IT IS IV].
  assert (Look : lookupOutEdge (nst (lg g) a) b = find (to b) (outs (nst (lg g) a))) by (apply lookup_ok, R).
  (* symbol table *)
  assert (TT : (forall s, In s (lsyms g') -> In s T) /\ (exists y, lsyms g' = lsyms g ++ y) /\
               sym_at (lsyms g') p = vsym v /\ (forall i, p = Some i -> i < length (lsyms g'))).
  { destruct (vsym v) as [s|] eqn:Ev.
    - destruct F8 as [-> F8]. destruct (Hs s eq_refl) as [Hs1 Hs2].
      destruct (intern_in T (lsyms g) s NT IT Hs1) as (Q1 & Q2 & Q3). rewrite F8.
      split; [exact Q2|]. split; [exact Q3|]. cbn [sym_at]. split; [exact Q1|].
      intros i [= <-]. apply nth_error_Some. rewrite Q1. discriminate.
    - destruct F8 as [-> F8]. rewrite F8. split; [exact IT|]. split; [exists []; now rewrite app_nil_r|].
      split; [reflexivity|discriminate]. }
  destruct TT as (TT1 & [y TT2] & TT3 & TT4).
  set (ee := snd (node_addEdge outEdgeIndexThreshold (lg g) a b)) in *.
  assert (SI : forall o, (forall i, o = Some i -> i < length (lsyms g)) -> sym_at (lsyms g') o = sym_at (lsyms g) o).
  { intros [i|] Hi; [|reflexivity]. cbn [sym_at]. rewrite TT2. apply nth_error_app1. now apply Hi. }
  assert (GN : gnodes (lg g') = seq 0 N).
  { rewrite F5. unfold node_addEdge, pushEdge. destruct (lookupOutEdge _ _); cbn [fst gnodes]; apply (rep_nodes _ _ R). }
  assert (GN0 : gnodes (lg g) = seq 0 N) by apply (rep_nodes _ _ R).
  assert (KEEP : forall x, In x E -> eid x <> eid ee -> edge_view g' x = edge_view g x).
  { intros x Hx Hn. unfold edge_view. rewrite (F7 _ Hn), GN, GN0. f_equal. f_equal. apply SI. intros i. now apply IS. }
  assert (FST : forall x, In x E -> fst (edge_view g x) = etgt x).
  { intros x Hx. unfold edge_view. cbn [fst]. rewrite GN0.
    destruct (rep_ends _ _ R x Hx) as [_ Ht]. cbn [mv] in Ht. apply in_seq in Ht. rewrite index_of_seq by lia. lia. }
  assert (OUTE : forall n x, In x (outs (nst (lg g) n)) -> In x E /\ esrc x = n).
  { intros n x. rewrite (rep_outs _ _ R). cbn [mE]. rewrite filter_In. unfold from. rewrite Nat.eqb_eq. tauto. }
  assert (NEW : etgt ee = b -> edge_view g' ee = (b, EV (vkind v) (vsym v) (asc (vbounds v)) (vdis v))).
  { intros Ht. unfold edge_view. rewrite F6, GN, Ht. cbn [dkind dsym dbounds ddis].
    rewrite index_of_seq, Nat.sub_0_r, TT3 by lia. reflexivity. }
  assert (NDo : forall n, NoDup (map eid (outs (nst (lg g) n)))).
  { intros n. rewrite (rep_outs _ _ R). cbn [mE]. generalize (rep_ids _ _ R). cbn [mE]. clear.
    induction E as [|e E IH]; intros H; [constructor|]. cbn [map] in H. apply NoDup_cons_iff in H. destruct H as [H1 H2].
    cbn [filter]. destruct (from n e); [|now apply IH]. cbn [map]. apply NoDup_cons; [|now apply IH].
    intros C. apply H1. apply in_map_iff in C. destruct C as [z [<- C]]. apply filter_In in C. now apply in_map. }
  exists g'. unfold norm_edge. cbn [fst snd].
  destruct (lookupOutEdge (nst (lg g) a) b) as [e|] eqn:LK.
  - (* the edge exists *)
    assert (EE : ee = e /\ lg g' = lg g).
    { unfold ee. rewrite F5. unfold node_addEdge. rewrite LK. auto. }
    destruct EE as [EE EG]. exists E. split; [exact Est|]. split; [|auto].
    symmetry in Look. destruct (find_some _ _ Look) as [He1 He2]. unfold to in He2. apply Nat.eqb_eq in He2.
    destruct (OUTE a e He1) as [He3 He4].
    constructor.
    + rewrite EG. exact R.
    + exact TT1.
    + intros e' i He' Hi. destruct (Nat.eq_dec (eid e') (eid ee)) as [Q|Q].
      * rewrite Q, F6 in Hi. cbn [dsym] in Hi. auto.
      * rewrite (F7 _ Q) in Hi. rewrite TT2, app_length. specialize (IS e' i He' Hi). lia.
    + intros n Hn. rewrite EG. unfold upd. destruct (Nat.eqb_spec n a) as [->|Hna].
      * rewrite <- (IV a Ha). apply map_put with (e := e).
        -- exact Look.
        -- apply NDo.
        -- intros z Hz. apply FST. now apply (OUTE a).
        -- rewrite <- EE. apply NEW. congruence.
        -- rewrite <- EE. intros z Hz. apply KEEP. now apply (OUTE a).
      * rewrite <- (IV n Hn). apply map_ext_in. intros z Hz. destruct (OUTE n z Hz) as [Z1 Z2]. apply KEEP; [assumption|].
        intros C. apply Hna. rewrite <- Z2, <- He4. f_equal.
        apply (eids_inj E); auto; [apply (rep_ids _ _ R)|congruence].
  - (* a new edge *)
    assert (EE : ee = Edge (nexte (lg g)) a b /\ lg g' = fst (pushEdge outEdgeIndexThreshold (lg g) a b)).
    { unfold ee. rewrite F5. unfold node_addEdge. rewrite LK. auto. }
    destruct EE as [EE EG].
    exists (E ++ [ee]). split; [exact Est|]. split; [|auto].
    pose proof (rep_push outEdgeIndexThreshold (lg g) _ a b R) as RP.
    assert (Hnew : forall x, In x E -> eid x <> eid ee).
    { intros x Hx C. apply (rep_fresh_e _ _ R) in Hx. cbn [mne] in Hx. rewrite EE in C. cbn [eid] in C. lia. }
    constructor.
    + rewrite EG. assert (RP' := RP ltac:(apply in_seq; lia) ltac:(apply in_seq; lia)).
      cbn [mg_push fst mv mE mnn mne] in RP'. rewrite EE. exact RP'.
    + exact TT1.
    + intros e' i He' Hi. apply in_app_iff in He'. destruct He' as [He'|[<-|[]]].
      * rewrite (F7 _ (Hnew _ He')) in Hi. rewrite TT2, app_length. specialize (IS e' i He' Hi). lia.
      * rewrite F6 in Hi. cbn [dsym] in Hi. auto.
    + intros n Hn. rewrite EG, pushEdge_outs. unfold upd. destruct (Nat.eqb_spec n a) as [->|Hna].
      * rewrite put_absent.
        -- rewrite map_app. cbn [map]. rewrite <- (IV a Ha). f_equal.
           ++ apply map_ext_in. intros z Hz. destruct (OUTE a z Hz) as [Z1 Z2]. apply KEEP; auto.
           ++ rewrite <- EE. f_equal. apply NEW. now rewrite EE.
        -- cbn [fst]. rewrite <- (IV a Ha), map_map. intros C. apply in_map_iff in C. destruct C as [z [Z1 Z2]].
           destruct (OUTE a z Z2) as [Z3 Z4]. rewrite (FST z Z3) in Z1. symmetry in Look.
           pose proof (find_none _ _ Look z Z2) as Z5. unfold to in Z5. apply Nat.eqb_neq in Z5. auto.
      * rewrite <- (IV n Hn). apply map_ext_in. intros z Hz. destruct (OUTE n z Hz) as [Z1 Z2]. apply KEEP; auto.
Qed.

Lemma edges_rt m N T idp : NoDup (map sypath T) ->
  (forall i, i < N -> id_find m (idp i) = Some i /\ in_u64 (idp i)) ->
  forall ds g E L, EInv g N T E L -> Forall (good N T) ds ->
  exists g' E', each (estep m) (map (edoc idp) ds) g = (g', Ok tt) /\
    (exists L', EInv g' N T E' L' /\
       forall a, L' a = fold_left put (map (fun x => norm_edge (snd x)) (filter (fun x => Nat.eqb (fst x) a) ds)) (L a)) /\
    lfiles g' = lfiles g /\ lbox g' = lbox g /\ lnode g' = lnode g /\ lid g' = lid g.
Proof.
  intros NT Hm. induction ds as [|x ds IH]; intros g E L I G.
  - exists g, E. split; [reflexivity|]. split; [exists L; split; [assumption|reflexivity]|auto].
  - inversion G as [|? ? G1 G2]; subst.
    destruct (edge_step m g N T E L idp x NT I G1 Hm) as (g1 & E1 & S1 & I1 & A1 & A2 & A3 & A4).
    destruct (IH g1 E1 _ I1 G2) as (g2 & E2 & S2 & (L' & I2 & V2) & B1 & B2 & B3 & B4).
    exists g2, E2. cbn [map each]. rewrite S1. split; [exact S2|]. split; [|repeat split; congruence].
    exists L'. split; [exact I2|]. intros a. rewrite V2. cbn [filter]. unfold upd.
    rewrite (Nat.eqb_sym a (fst x)). destruct (Nat.eqb_spec (fst x) a) as [->|]; reflexivity.
Qed.


(** ** The round trip *)
Variable cbad : cval.
Variable ctext : cval -> str.
Variable cparse : str -> option cval.
Notation norm := (norm_data cbad ctext cparse).

Definition rt_view (v : list (ndata cval * list (nat * eview))) :=
  map (fun x => (norm (fst x), collapse (map norm_edge (snd x)))) v.

Lemma round_trip (g : nlg) next : Storable g ->
  exists g', deserialize cbad cparse next (serialize ctext g) nl_empty = (g', Ok tt) /\
    lfiles g' = lfiles g /\ lbox g' = lbox g /\ view g' = rt_view (view g) /\
    map (lid g') (gnodes (lg g')) = map (fun i => (next + Z.of_nat i)%Z) (seq 0 (length (gnodes (lg g)))).
Proof.
  intros [SG SI S64 SF SS SL SD SE].
  destruct (reachable_rep _ _ SG) as [s R].
  assert (NDn : NoDup (gnodes (lg g))) by (rewrite (rep_nodes _ _ R); apply R).
  assert (ENDS : forall n e, In e (outs (nst (lg g) n)) -> esrc e = n /\ In (etgt e) (gnodes (lg g))).
  { intros n e. rewrite (rep_outs _ _ R), filter_In. unfold from. rewrite Nat.eqb_eq. intros [He Hs].
    split; [assumption|]. rewrite (rep_nodes _ _ R). now apply R. }
  set (ns := gnodes (lg g)) in *. set (N := length ns).
  set (idp := fun i => lid g (nth i ns 0)).
  unfold deserialize, serialize. fields. cbn [bind]. rewrite getI32_ok by (unfold in_i32; lia). cbn [bind].
  replace (negb (3 =? 3)%Z) with false by reflexivity. cbv iota. cbn [elems].
  rewrite files_rt by (cbn [nl_empty lfiles app]; exact SF). cbv iota. cbn [nl_empty lfiles lbox lg lnode lid ledge lsyms app].
  rewrite boxes_rt. cbn [lfiles lbox lg lnode lid ledge lsyms app].
  set (g2 := NL (lfiles g) (lbox g) empty_graph _ _ _ _).
  assert (B0 : bare cval g2 0) by (apply rep_empty).
  destruct (nodes_rt cval cbad ctext cparse (lid g) (lnode g) ns g2 [] next 0 B0
              (fun n Hn => conj (S64 n Hn) (SD n Hn)))
    as (g3 & m & nx & E3 & R3 & A2 & A3 & A4 & _ & A6 & A7 & A8 & _ & A10).
  fold ns. unfold idmap in *. rewrite E3. cbn [Nat.add] in *. fold N in R3, A10. destruct (A7 SI) as [A7' _]. clear A7.
  set (ds := flat_map (fun i => map (fun e => (i, edge_view g e)) (outs (nst (lg g) (nth i ns 0)))) (seq 0 N)).
  assert (DOC : flat_map (fun n => map (edgeToJson g) (outs (nst (lg g) n))) ns = map (edoc idp) ds).
  { rewrite flat_map_nth_seq. unfold ds. rewrite !flat_map_concat_map, concat_map, map_map. f_equal.
    apply map_ext_in. intros i Hi. apply in_seq in Hi. rewrite map_map. apply map_ext_in. intros e He.
    destruct (ENDS _ _ He) as [E1 E2]. unfold edgeToJson, edoc, edge_view. cbn [fst snd vkind vsym vbounds vdis].
    fold ns. unfold idp. rewrite E1, (proj1 (index_of_nth _ _ E2)).
    do 4 f_equal. f_equal. f_equal. unfold sym_at.
    destruct (dsym (ledge g (eid e))) as [j|]; [|reflexivity]. now destruct (nth_error (lsyms g) j). }
  rewrite DOC.
  assert (HM : forall i, i < N -> id_find m (idp i) = Some i /\ in_u64 (idp i)).
  { intros i Hi. split.
    - apply A7'. now apply nth_error_nth'.
    - apply S64. now apply nth_In. }
  assert (I0 : EInv g3 N (lsyms g) [] (fun _ => [])).
  { constructor.
    - unfold bare in R3. assert (X : nexte (lg g3) = 0) by apply (rep_ne _ _ R3). rewrite X. exact R3.
    - rewrite A4. intros x [].
    - intros e i [].
    - intros a _. rewrite (rep_outs _ _ R3). reflexivity. }
  assert (GD : Forall (good N (lsyms g)) ds).
  { apply Forall_forall. intros x Hx. unfold ds in Hx. apply in_flat_map in Hx. destruct Hx as [i [Hi Hx]].
    apply in_map_iff in Hx. destruct Hx as [e [<- He]]. apply in_seq in Hi.
    destruct (ENDS _ _ He) as [E1 E2]. assert (Hn : In (nth i ns 0) ns) by (apply nth_In; fold N; lia).
    destruct (SE _ _ Hn He) as [Q1 Q2]. unfold good, edge_view. cbn [fst snd vbounds vsym]. fold ns.
    split; [lia|]. split; [apply index_of_nth; assumption|]. split; [assumption|].
    intros y Hy. unfold sym_at in Hy. destruct (dsym (ledge g (eid e))) as [j|]; [|discriminate].
    apply nth_error_In in Hy. auto. }
  destruct (edges_rt m N (lsyms g) idp SS HM ds g3 [] _ I0 GD)
    as (g4 & E4 & S4 & (L & I4 & V4) & C1 & C2 & C3 & C4).
  exists g4. split; [exact S4|]. split; [rewrite C1, A2; reflexivity|]. split; [rewrite C2, A3; reflexivity|].
  assert (GN : gnodes (lg g4) = seq 0 N) by apply (rep_nodes _ _ (ei_rep _ _ _ _ _ I4)).
  rewrite GN. split.
  - unfold view at 1. rewrite GN. unfold rt_view, view. fold ns. rewrite map_map, (map_nth_seq _ ns). fold N.
    apply map_ext_in. intros i Hi. apply in_seq in Hi. unfold node_view. cbn [fst snd]. f_equal.
    + rewrite C3. apply A6. apply nth_error_nth'. fold N. lia.
    + rewrite (ei_view _ _ _ _ _ I4 i) by lia. rewrite V4. unfold collapse. f_equal.
      unfold ds. rewrite filter_flat_map.
      rewrite (flat_map_concat_map _ (seq 0 N)), (map_ext_in _ (fun x => if Nat.eqb x i then map (fun e => (x, edge_view g e)) (outs (nst (lg g) (nth x ns 0))) else [])).
      * rewrite <- flat_map_concat_map, flat_map_pick by lia. rewrite !map_map. reflexivity.
      * intros x _. clear. induction (outs (nst (lg g) (nth x ns 0))) as [|e l IH]; cbn [map filter fst].
        -- now destruct (Nat.eqb x i).
        -- rewrite IH. now destruct (Nat.eqb x i).
  - apply map_ext_in. intros i Hi. apply in_seq in Hi. rewrite C4. apply A10. lia.
Qed.

(** Without parallel edges nothing is merged. *)
Lemma collapse_id l : NoDup (map fst l) -> collapse l = l.
Proof.
  unfold collapse. intros H. change l with ([] ++ l) at 2. revert H.
  assert (G : forall l acc, NoDup (map fst (acc ++ l)) -> fold_left put l acc = acc ++ l).
  { clear. induction l as [|x l IH]; intros acc H; cbn [fold_left]; [now rewrite app_nil_r|].
    rewrite put_absent.
    - rewrite IH; rewrite <- app_assoc; [reflexivity|exact H].
    - rewrite map_app in H. cbn [map] in H. apply NoDup_remove_2 in H. intros C. apply H. apply in_or_app. now left. }
  intros H. now apply G.
Qed.

Lemma norm_edge_id x : plain_range (vbounds (snd x)) -> norm_edge x = x.
Proof.
  destruct x as [t [k s [a b] d]]. unfold plain_range, norm_edge, asc. cbn [fst snd vbounds vkind vsym vdis rleft rright].
  intros H. now rewrite Z.min_l, Z.max_r by lia.
Qed.
Lemma norm_data_id d : plain_data cbad ctext cparse d -> norm d = d.
Proof.
  destruct d; cbn [plain_data norm_data]; intros H; try reflexivity; try congruence;
    destruct b as [x y]; unfold plain_range in H; cbn [rleft rright] in H; unfold asc; cbn [rleft rright];
    now rewrite Z.min_l, Z.max_r by lia.
Qed.

Lemma round_trip_exact (g : nlg) next : Storable g -> Plain cbad ctext cparse g -> NoParallel g ->
  exists g', deserialize cbad cparse next (serialize ctext g) nl_empty = (g', Ok tt) /\
    lfiles g' = lfiles g /\ lbox g' = lbox g /\ view g' = view g.
Proof.
  intros S P Q. destruct (round_trip g next S) as (g' & A & B & C & D & _). exists g'.
  split; [exact A|]. split; [exact B|]. split; [exact C|]. rewrite D. clear A B C D g'.
  unfold rt_view. rewrite <- (map_id (view g)) at 2. apply map_ext_in. intros x Hx.
  unfold Plain in P. rewrite Forall_forall in P. destruct (P x Hx) as [P1 P2].
  destruct x as [d l]. cbn [fst snd] in *. f_equal; [now apply norm_data_id|].
  rewrite (map_ext_in _ (fun y => y)), map_id.
  - apply collapse_id. unfold view in Hx. apply in_map_iff in Hx. destruct Hx as [n [Hx Hn]].
    unfold node_view in Hx. injection Hx as _ <-. rewrite map_map. unfold edge_view. cbn [fst].
    specialize (Q n Hn). destruct (reachable_rep _ _ (st_graph _ _ S)) as [s R].
    assert (ENDS : forall e, In e (outs (nst (lg g) n)) -> In (etgt e) (gnodes (lg g))).
    { intros e. rewrite (rep_outs _ _ R), filter_In. intros [He _]. rewrite (rep_nodes _ _ R). now apply R. }
    revert Q ENDS. clear. generalize (gnodes (lg g)) as ns. induction (outs (nst (lg g) n)) as [|e l IH]; intros ns Q E; [constructor|].
    cbn [map] in *. apply NoDup_cons_iff in Q. destruct Q as [Q1 Q2]. constructor; [|apply IH; [assumption|intros; apply E; now right]].
    intros C. apply in_map_iff in C. destruct C as [y [C1 C2]]. apply Q1.
    assert (etgt y = etgt e) as <-; [|now apply in_map].
    rewrite <- (proj1 (index_of_nth ns _ (E e (or_introl eq_refl)))), <- (proj1 (index_of_nth ns _ (E y (or_intror C2)))). congruence.
  - intros y Hy. rewrite Forall_forall in P2. apply norm_edge_id. now apply P2.
Qed.

End Serial.

(** Merging never adds edges. *)
Lemma put_length l x : length (put l x) = length l \/ length (put l x) = S (length l).
Proof. induction l as [|y l IH]; cbn [put length]; [auto|]. destruct (Nat.eqb (fst y) (fst x)); cbn [length]; lia. Qed.
Lemma collapse_targets l t : In t (map fst (collapse l)) <-> In t (map fst l).
Proof.
  unfold collapse.
  assert (P : forall acc x, In t (map fst (put acc x)) <-> t = fst x \/ In t (map fst acc)).
  { clear. induction acc as [|y acc IH]; intros x; cbn [put map In].
    - intuition congruence.
    - destruct (Nat.eqb_spec (fst y) (fst x)) as [E|E]; cbn [map In]; [|rewrite IH]; intuition congruence. }
  assert (G : forall l acc, In t (map fst (fold_left put l acc)) <-> In t (map fst acc) \/ In t (map fst l)).
  { clear -P. induction l as [|x l IH]; intros acc; cbn [fold_left map In]; [tauto|].
    rewrite IH, P. intuition congruence. }
  rewrite G. cbn [map In]. tauto.
Qed.
Lemma collapse_nodup l : NoDup (map fst (collapse l)).
Proof.
  unfold collapse. assert (G : forall l acc, NoDup (map fst acc) -> NoDup (map fst (fold_left put l acc))).
  { clear. induction l as [|x l IH]; intros acc H; cbn [fold_left]; [assumption|]. apply IH. clear IH.
    induction acc as [|y acc IH]; cbn [put map]; [repeat constructor; intros []|].
    cbn [map] in H. apply NoDup_cons_iff in H. destruct H as [H1 H2].
    destruct (Nat.eqb_spec (fst y) (fst x)) as [E|E]; cbn [map].
    - rewrite E in H1. now constructor.
    - constructor; [|now apply IH]. intros C. apply H1. clear -C E.
      induction acc as [|z acc IH]; cbn [put map In] in *; [destruct C; congruence|].
      destruct (Nat.eqb_spec (fst z) (fst x)) as [Q|Q]; cbn [map In] in C; intuition congruence. }
  apply G. constructor.
Qed.
