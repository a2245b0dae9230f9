(** Linearisability of concurrent edge insertion. *)
From Verif Require Import Base M_Graph S_Graph P_Graph M_Conc S_Conc P_Conc.

(** ** The two halves of a push *)
Lemma pushEdge_oidx thr g a b x :
  oidx (nst (fst (pushEdge thr g a b)) x) =
  if Nat.eqb x a then insertOutEdgeIndex thr (oidx (nst g a)) (outs (nst g a) ++ [Edge (nexte g) a b]) b (Edge (nexte g) a b)
  else oidx (nst g x).
Proof.
  unfold pushEdge, upd; simpl.
  destruct (Nat.eqb_spec x b), (Nat.eqb_spec x a); subst; simpl; try rewrite Nat.eqb_refl; simpl; try reflexivity.
  destruct (Nat.eqb_spec b a); [congruence|reflexivity].
Qed.
Lemma pushOut_nst thr g a b x :
  nst (fst (pushOut thr g a b)) x =
  if Nat.eqb x a then NState (outs (nst g a) ++ [Edge (nexte g) a b]) (ins (nst g a))
    (insertOutEdgeIndex thr (oidx (nst g a)) (outs (nst g a) ++ [Edge (nexte g) a b]) b (Edge (nexte g) a b))
  else nst g x.
Proof. reflexivity. Qed.
Lemma pushOut_edge thr g a b : snd (pushOut thr g a b) = Edge (nexte g) a b.
Proof. reflexivity. Qed.
Lemma pushIn_outs g e x : outs (nst (pushIn g e) x) = outs (nst g x).
Proof. apply (pushIn_src g e x). Qed.
Lemma pushIn_oidx g e x : oidx (nst (pushIn g e) x) = oidx (nst g x).
Proof. apply (pushIn_src g e x). Qed.
Lemma pushIn_ins g e x : ins (nst (pushIn g e) x) = ins (nst g x) ++ filter (to x) [e].
Proof.
  unfold pushIn, upd; simpl. unfold to. rewrite (Nat.eqb_sym (etgt e) x).
  destruct (Nat.eqb_spec x (etgt e)); subst; simpl; [reflexivity|]. now rewrite app_nil_r.
Qed.
Lemma pushOut_outs thr g a b x : outs (nst (fst (pushOut thr g a b)) x) =
  outs (nst g x) ++ filter (from x) [Edge (nexte g) a b].
Proof.
  rewrite pushOut_nst. unfold from. simpl. rewrite (Nat.eqb_sym a x).
  destruct (Nat.eqb_spec x a); subst; simpl; [reflexivity|]. now rewrite app_nil_r.
Qed.
Lemma pushOut_ins thr g a b x : ins (nst (fst (pushOut thr g a b)) x) = ins (nst g x).
Proof. rewrite pushOut_nst. destruct (Nat.eqb_spec x a); now subst. Qed.

(** Sequential graph [G] against concurrent graph [g] with in-edges [P] still to come. *)
Record GRel (G g : graph) (P : nat -> list edge) : Prop := {
  gr_nodes : gnodes G = gnodes g;
  gr_nextn : nextn G = nextn g;
  gr_nexte : nexte G = nexte g;
  gr_outs : forall n, outs (nst G n) = outs (nst g n);
  gr_idx : forall n, oidx (nst G n) = oidx (nst g n);
  gr_ins : forall n, Permutation (ins (nst G n)) (ins (nst g n) ++ P n) }.

Lemma grel_perm G g P P' : (forall n, Permutation (P n) (P' n)) -> GRel G g P -> GRel G g P'.
Proof.
  intros H [A B C D E F]. constructor; auto. intros n. rewrite F. now apply Permutation_app_head.
Qed.

Lemma grel_pushOut thr G g P a b : GRel G g P ->
  snd (pushEdge thr G a b) = Edge (nexte g) a b /\
  GRel (fst (pushEdge thr G a b)) (fst (pushOut thr g a b))
       (fun n => filter (to n) [Edge (nexte g) a b] ++ P n).
Proof.
  intros [A B C D E F]. split; [unfold pushEdge; simpl; now rewrite C|].
  constructor; try (simpl; congruence).
  - intros n. rewrite pushEdge_outs, pushOut_nst, D, C. destruct (Nat.eqb_spec n a); now subst.
  - intros n. rewrite pushEdge_oidx, pushOut_nst, !D, !E, C. destruct (Nat.eqb_spec n a); reflexivity.
  - intros n. rewrite pushEdge_ins, pushOut_ins, C. unfold to. simpl. rewrite (Nat.eqb_sym b n).
    destruct (Nat.eqb_spec n b); [|apply F]. rewrite F. simpl. rewrite <- app_assoc.
    apply Permutation_app_head. symmetry. apply Permutation_cons_append.
Qed.

Lemma grel_pushIn G g e P P' : (forall n, Permutation (P n) (filter (to n) [e] ++ P' n)) ->
  GRel G g P -> GRel G (pushIn g e) P'.
Proof.
  intros H [A B C D E F]. constructor; auto.
  - intros n. now rewrite pushIn_outs.
  - intros n. now rewrite pushIn_oidx.
  - intros n. rewrite pushIn_ins, F, <- app_assoc. now apply Permutation_app_head.
Qed.

(** ** Pending in-edges of all threads *)
Definition pend_to (n : nat) (x : thread) : list edge := filter (to n) (olist (pend (tpc x))).
Definition pendings (N : nat) (s : cstate) (n : nat) : list edge :=
  flat_map (fun t => pend_to n (th s t)) (seq 0 N).

Lemma pend_split N s t : t < N -> exists R : nat -> list edge,
  forall s', (forall u, u <> t -> th s' u = th s u) ->
  forall n, Permutation (pendings N s' n) (pend_to n (th s' t) ++ R n).
Proof.
  intros L. destruct (in_split t (seq 0 N)) as (l1 & l2 & E); [apply in_seq; lia|].
  assert (ND : NoDup (l1 ++ t :: l2)) by (rewrite <- E; apply seq_NoDup).
  apply NoDup_remove_2 in ND.
  exists (fun n => flat_map (fun t => pend_to n (th s t)) l1 ++ flat_map (fun t => pend_to n (th s t)) l2).
  intros s' H n. unfold pendings. rewrite E, flat_map_app. simpl.
  assert (G : forall l, ~ In t l -> flat_map (fun t => pend_to n (th s' t)) l = flat_map (fun t => pend_to n (th s t)) l).
  { induction l as [|x l IH]; intros Hl; [reflexivity|]. simpl. rewrite IH by (intros C; apply Hl; now right).
    rewrite H; [reflexivity|]. intros ->. apply Hl. now left. }
  rewrite !G by (intros C; apply ND; apply in_app_iff; auto).
  rewrite Permutation_app_swap_app. reflexivity.
Qed.

(** ** Histories *)
Lemma run_snoc thr : forall os g G xs o G' x, run thr g os = Some (G, xs) -> step thr G o = Some (G', x) ->
  run thr g (os ++ [o]) = Some (G', xs ++ [x]).
Proof.
  induction os as [|a os IH]; intros g G xs o G' x H S; simpl in *.
  - injection H as <- <-. now rewrite S.
  - destruct (step thr g a) as [[g1 y]|]; [|discriminate]. destruct (run thr g1 os) as [[g2 ys]|] eqn:E; [|discriminate].
    injection H as <- <-. now rewrite (IH _ _ _ _ _ _ E S).
Qed.

Lemma h_of_snoc h t c e u : h_of (h ++ [(t, c, e)]) u = h_of h u ++ (if Nat.eqb t u then [(t, c, e)] else []).
Proof. unfold h_of. rewrite filter_app'. simpl. unfold h_thread. simpl. now destruct (Nat.eqb t u). Qed.

Record Lin (thr : nat) (g0 : graph) (progs : list (list call)) (s : cstate) (h : hist) : Prop := {
  li_prog : forall t, nth t progs [] =
    map h_call (h_of h t) ++ match lin (tpc (th s t)) with Some _ => tl (todo (th s t)) | None => todo (th s t) end;
  li_rets : forall t, map snd (h_of h t) = rets (th s t) ++ olist (lin (tpc (th s t)));
  li_nodes : gnodes (cg s) = gnodes g0;
  li_seq : exists G, run thr g0 (map (fun x => call_op (h_call x)) h) = Some (G, map (fun x => REdge (snd x)) h) /\
                     GRel G (cg s) (pendings (length progs) s) }.

Lemma lin_init thr g progs : Lin thr g progs (cinit g progs) [].
Proof.
  constructor; simpl; auto. exists g. split; [reflexivity|].
  constructor; auto. intros n. unfold pendings.
  assert (E : flat_map (fun t => pend_to n (th (cinit g progs) t)) (seq 0 (length progs)) = []).
  { induction (seq 0 (length progs)); simpl; auto. }
  rewrite E, app_nil_r. reflexivity.
Qed.

(** A step that changes neither the graph nor the pending in-edge nor the log. *)
Lemma lin_silent thr g0 progs s s' t h : t < length progs -> Lin thr g0 progs s h ->
  (forall u, u <> t -> th s' u = th s u) -> cg s' = cg s ->
  pend (tpc (th s' t)) = pend (tpc (th s t)) ->
  map snd (h_of h t) = rets (th s' t) ++ olist (lin (tpc (th s' t))) ->
  nth t progs [] = map h_call (h_of h t) ++
    match lin (tpc (th s' t)) with Some _ => tl (todo (th s' t)) | None => todo (th s' t) end ->
  Lin thr g0 progs s' h.
Proof.
  intros L [A B C (G & R & D)] HU HG HP HR HT. constructor.
  - intros u. destruct (Nat.eq_dec u t) as [->|N]; [exact HT|]. rewrite HU by assumption. apply A.
  - intros u. destruct (Nat.eq_dec u t) as [->|N]; [exact HR|]. rewrite HU by assumption. apply B.
  - now rewrite HG.
  - exists G. split; [exact R|]. rewrite HG. eapply grel_perm; [|exact D].
    destruct (pend_split (length progs) s t L) as (Rm & HRm). intros n.
    rewrite (HRm s (fun _ _ => eq_refl) n), (HRm s' HU n). unfold pend_to. now rewrite HP.
Qed.

(** A pending in-edge is delivered. *)
Lemma lin_deliver thr g0 progs s s' t h e : t < length progs -> Lin thr g0 progs s h ->
  (forall u, u <> t -> th s' u = th s u) -> cg s' = pushIn (cg s) e ->
  pend (tpc (th s t)) = Some e -> pend (tpc (th s' t)) = None -> lin (tpc (th s' t)) = lin (tpc (th s t)) ->
  rets (th s' t) = rets (th s t) -> todo (th s' t) = todo (th s t) ->
  Lin thr g0 progs s' h.
Proof.
  intros L [A B C (G & R & D)] HU HG HP HP' HL HR HT. constructor.
  - intros u. destruct (Nat.eq_dec u t) as [->|N]; [rewrite HL, HT; apply A|]. rewrite HU by assumption. apply A.
  - intros u. destruct (Nat.eq_dec u t) as [->|N]; [rewrite HR, HL; apply B|]. rewrite HU by assumption. apply B.
  - now rewrite HG.
  - exists G. split; [exact R|]. rewrite HG. eapply grel_pushIn; [|exact D].
    destruct (pend_split (length progs) s t L) as (Rm & HRm). intros n.
    rewrite (HRm s (fun _ _ => eq_refl) n), (HRm s' HU n). unfold pend_to. rewrite HP, HP'. reflexivity.
Qed.

(** A linearisation point. *)
Lemma lin_point thr g0 progs s s' t h c r e : t < length progs -> Lin thr g0 progs s h ->
  (forall u, u <> t -> th s' u = th s u) ->
  todo (th s t) = c :: r -> lin (tpc (th s t)) = None ->
  lin (tpc (th s' t)) = Some e -> rets (th s' t) = rets (th s t) -> todo (th s' t) = todo (th s t) ->
  gnodes (cg s') = gnodes (cg s) ->
  (forall G, GRel G (cg s) (pendings (length progs) s) ->
     exists G', step thr G (call_op c) = Some (G', REdge e) /\ GRel G' (cg s') (pendings (length progs) s')) ->
  Lin thr g0 progs s' (h ++ [(t, c, e)]).
Proof.
  intros L [A B C (G & R & D)] HU HT HL HL' HR HT' HN HS. constructor.
  - intros u. rewrite h_of_snoc. destruct (Nat.eqb_spec t u) as [<-|N].
    + rewrite HL', HT', HT. rewrite (A t), HL, HT, map_app, <- app_assoc. reflexivity.
    + rewrite app_nil_r, HU by auto. apply A.
  - intros u. rewrite h_of_snoc. destruct (Nat.eqb_spec t u) as [<-|N].
    + rewrite map_app, (B t), HL, HL', HR. simpl. now rewrite app_nil_r.
    + rewrite app_nil_r, HU by auto. apply B.
  - congruence.
  - destruct (HS G D) as (G' & S & D'). exists G'. split; [|exact D']. rewrite !map_app. simpl.
    eapply run_snoc; eauto.
Qed.

Lemma hasNode_nodes G g n : gnodes G = gnodes g -> hasNode G n = hasNode g n.
Proof. intros E. rewrite !hasNode_memb. now rewrite E. Qed.

Lemma lin_step thr g0 progs s s' t h : Valid g0 progs -> (forall u, TInv s u) -> quiet (length progs) s ->
  sub_progs progs s -> Lin thr g0 progs s h -> cstep thr t s = Some s' ->
  exists h', Lin thr g0 progs s' (h ++ h') /\ length h' <= 1.
Proof.
  intros V I Q SP LI H. destruct (quiet_step _ _ _ _ _ Q H) as [L _].
  pose proof (st_th _ _ _ (step_inv _ _ _ _ (I t) H)) as HU.
  pose proof (li_prog _ _ _ _ _ LI t) as LP. pose proof (li_rets _ _ _ _ _ LI t) as LR.
  unfold cstep in H. destruct (todo (th s t)) as [|c r] eqn:T; [discriminate|].
  assert (VA : hasNode (cg s) (c_src c) = true /\ hasNode (cg s) (c_tgt c) = true).
  { destruct (SP t c) as (p & Hp & Hc); [rewrite T; now left|].
    rewrite !(hasNode_nodes (cg s) g0) by apply LI. eauto. }
  pose proof (fun e => ti_ends _ _ (I t) c r e T) as EN.
  (* silent steps *)
  assert (SIL : cg s' = cg s -> pend (tpc (th s' t)) = pend (tpc (th s t)) ->
     rets (th s' t) ++ olist (lin (tpc (th s' t))) = rets (th s t) ++ olist (lin (tpc (th s t))) ->
     match lin (tpc (th s' t)) with Some _ => tl (todo (th s' t)) | None => todo (th s' t) end =
     match lin (tpc (th s t)) with Some _ => r | None => c :: r end ->
     exists h', Lin thr g0 progs s' (h ++ h') /\ length h' <= 1).
  { intros H1 H2 H3 H4. exists []. split; [|simpl; lia]. rewrite app_nil_r.
    eapply lin_silent; eauto; [rewrite LR; now symmetry|rewrite LP; f_equal; symmetry; exact H4]. }
  (* push of a new edge *)
  assert (PUSH : forall p p', tpc (th s t) = p -> lin p = None -> pend p = None ->
      (forall G, GRel G (cg s) (pendings (length progs) s) ->
                 step thr G (call_op c) = Some (fst (pushEdge thr G (c_src c) (c_tgt c)), REdge (Edge (nexte (cg s)) (c_src c) (c_tgt c)))) ->
      (forall e, lin (p' e) = Some e) -> (forall e, pend (p' e) = Some e) ->
      s' = (let (g, e) := pushOut thr (cg s) (c_src c) (c_tgt c) in
            if Nat.eqb (c_src c) (c_tgt c) then go (setg s (pushIn g e)) t (PRet e) else go (setg s g) t (p' e)) ->
      exists h', Lin thr g0 progs s' (h ++ h') /\ length h' <= 1).
  { intros p p' P HL HP HS HL' HP' E. set (e := Edge (nexte (cg s)) (c_src c) (c_tgt c)).
    exists [(t, c, e)]. split; [|simpl; lia].
    destruct (pushOut thr (cg s) (c_src c) (c_tgt c)) as [g e0] eqn:PO.
    assert (E0 : e0 = e) by (unfold pushOut in PO; injection PO as _ <-; reflexivity).
    assert (Eg : g = fst (pushOut thr (cg s) (c_src c) (c_tgt c))) by now rewrite PO.
    assert (TH : tpc (th s' t) = (if Nat.eqb (c_src c) (c_tgt c) then PRet e else p' e) /\
                 todo (th s' t) = todo (th s t) /\ rets (th s' t) = rets (th s t) /\
                 cg s' = (if Nat.eqb (c_src c) (c_tgt c) then pushIn g e else g)).
    { rewrite E, E0. destruct (Nat.eqb (c_src c) (c_tgt c)); simpl; rewrite upd_same; auto. }
    destruct TH as (T1 & T2 & T3 & T4).
    eapply (lin_point _ _ _ _ _ _ _ c r); eauto.
    - now rewrite P.
    - rewrite T1. destruct (Nat.eqb _ _); [reflexivity|apply HL'].
    - rewrite T4. subst g. destruct (Nat.eqb _ _); reflexivity.
    - intros G D. exists (fst (pushEdge thr G (c_src c) (c_tgt c))). split; [now apply HS|].
      destruct (grel_pushOut thr _ _ _ (c_src c) (c_tgt c) D) as [_ D2]. rewrite <- Eg in D2. fold e in D2.
      destruct (pend_split (length progs) s t L) as (Rm & HRm). rewrite T4.
      destruct (Nat.eqb (c_src c) (c_tgt c)).
      + eapply grel_pushIn; [|exact D2]. intros n. cbv beta. apply Permutation_app_head.
        rewrite (HRm s (fun _ _ => eq_refl) n), (HRm s' HU n). unfold pend_to. rewrite T1, P, HP. reflexivity.
      + eapply grel_perm; [|exact D2]. intros n. cbv beta.
        rewrite (HRm s (fun _ _ => eq_refl) n), (HRm s' HU n). unfold pend_to. rewrite T1, P, HP, HP'. reflexivity. }
  assert (AQ : forall n p, acquire s t n p = Some s' ->
            cg s' = cg s /\ tpc (th s' t) = p /\ todo (th s' t) = c :: r /\ rets (th s' t) = rets (th s t)).
  { intros n p E. unfold acquire in E. destruct (lk s n); [discriminate|]. injection E as <-. simpl.
    rewrite upd_same. simpl. auto. }
  destruct (tpc (th s t)) eqn:P.
  - destruct (AQ _ _ H) as (A1 & A2 & A3 & A4). apply SIL; auto; rewrite A2; rewrite ?A3, ?A4; destruct c; reflexivity.
  - (* PLocked *) destruct (ti_add _ _ (I t) c r T) as (a & b & ->); [now rewrite P|]. simpl in *.
    destruct (lookupOutEdge (nst (cg s) a) b) as [e|] eqn:LU; injection H as <-.
    + exists [(t, CAdd a b, e)]. split; [|simpl; lia].
      eapply (lin_point _ _ _ _ _ _ _ (CAdd a b) r); eauto; simpl; rewrite ?upd_same; simpl; auto.
      * now rewrite P.
      * intros G D. exists G. split.
        -- unfold g_addEdge. rewrite !(hasNode_nodes G (cg s)) by apply D. rewrite (proj1 VA), (proj2 VA). simpl.
           unfold node_addEdge. rewrite (lookup_same (cg s) G); [now rewrite LU|].
           split; [symmetry; apply (gr_outs _ _ _ D)|symmetry; apply (gr_idx _ _ _ D)] || (split; apply D).
        -- eapply grel_perm; [|exact D]. destruct (pend_split (length progs) s t L) as (Rm & HRm). intros n.
           rewrite (HRm s (fun _ _ => eq_refl) n), (HRm (go s t (PRet e)) HU n). unfold pend_to. rewrite P. simpl.
           rewrite upd_same. reflexivity.
    + apply SIL; simpl; rewrite ?upd_same; simpl; auto.
  - (* PMiss *) destruct (ti_add _ _ (I t) c r T) as (a & b & ->); [now rewrite P|].
    pose proof (ti_miss _ _ (I t) _ _ T P) as LU. simpl in LU.
    apply (PUSH PMiss PWantB); auto.
    + intros G D. cbn [step call_op c_src c_tgt]. unfold g_addEdge. rewrite !(hasNode_nodes G (cg s)) by apply D.
      simpl in VA. rewrite (proj1 VA), (proj2 VA). cbn [andb option_map]. unfold node_addEdge.
      rewrite (lookup_same (cg s) G) by (split; apply D). rewrite LU.
      destruct (grel_pushOut thr _ _ _ a b D) as [E _]. now rewrite E.
    + destruct (pushOut thr (cg s) (c_src (CAdd a b)) (c_tgt (CAdd a b))) as [g e].
      destruct (Nat.eqb _ _); now injection H as <-.
  - (* PRet *) injection H as <-. apply SIL; simpl; rewrite ?upd_same; simpl; rewrite ?T; auto.
    now rewrite app_nil_r.
  - destruct (AQ _ _ H) as (A1 & A2 & A3 & A4). apply SIL; auto; rewrite A2; rewrite ?A3, ?A4; reflexivity.
  - (* PHasB *) exists []. rewrite app_nil_r. split; [|simpl; lia]. injection H as <-.
    eapply (lin_deliver _ _ _ _ _ _ _ e); eauto; simpl; rewrite ?upd_same; simpl; rewrite ?P; reflexivity.
  - injection H as <-. apply SIL; simpl; rewrite ?upd_same; simpl; rewrite ?T; auto.
  - (* PNewLocked *) destruct (ti_new _ _ (I t) c r T) as (a & b & ->); [now rewrite P|].
    apply (PUSH PNewLocked PNewRelA); auto.
    + intros G D. cbn [step call_op c_src c_tgt]. unfold g_addNewEdge. rewrite !(hasNode_nodes G (cg s)) by apply D.
      simpl in VA. rewrite (proj1 VA), (proj2 VA). cbn [andb option_map]. unfold node_addNewEdge.
      destruct (grel_pushOut thr _ _ _ a b D) as [E _]. now rewrite E.
    + destruct (pushOut thr (cg s) (c_src (CNew a b)) (c_tgt (CNew a b))) as [g e].
      destruct (Nat.eqb _ _); now injection H as <-.
  - injection H as <-. apply SIL; simpl; rewrite ?upd_same; simpl; rewrite ?T; auto.
  - destruct (AQ _ _ H) as (A1 & A2 & A3 & A4). apply SIL; auto; rewrite A2; rewrite ?A3, ?A4; reflexivity.
  - (* PNewHasB *) exists []. rewrite app_nil_r. split; [|simpl; lia]. injection H as <-.
    eapply (lin_deliver _ _ _ _ _ _ _ e); eauto; simpl; rewrite ?upd_same; simpl; rewrite ?P; reflexivity.
  - injection H as <-. apply SIL; simpl; rewrite ?upd_same; simpl; rewrite ?T; auto.
    now rewrite app_nil_r.
Qed.

(** ** Whole runs *)
Record Good (thr : nat) (g0 : graph) (progs : list (list call)) (s : cstate) : Prop := {
  gd_inv : forall u, TInv s u;
  gd_quiet : quiet (length progs) s;
  gd_sub : sub_progs progs s }.
Lemma good_init thr g progs : Good thr g progs (cinit g progs).
Proof. constructor; [apply tinv_init|apply quiet_init|apply sub_progs_init]. Qed.
Lemma good_step thr g progs s s' t : Good thr g progs s -> cstep thr t s = Some s' -> Good thr g progs s'.
Proof.
  intros [A B C] H. constructor; [eapply tinv_step; eauto|eapply quiet_step; eauto|eapply sub_progs_step; eauto].
Qed.

Lemma lin_exec thr g0 progs : Valid g0 progs -> forall sched s s' h, Good thr g0 progs s -> Lin thr g0 progs s h ->
  exec thr sched s = Some s' -> Good thr g0 progs s' /\ exists h', Lin thr g0 progs s' (h ++ h').
Proof.
  intros V. induction sched as [|t r IH]; intros s s' h GD L E; simpl in E.
  - injection E as <-. split; [assumption|]. exists []. now rewrite app_nil_r.
  - destruct (cstep thr t s) as [s1|] eqn:C; [|discriminate].
    destruct (lin_step thr g0 progs s s1 t h V) as (h1 & L1 & _); auto; try apply GD.
    destruct (IH s1 s' (h ++ h1)) as (GD' & h2 & L2); auto; [eapply good_step; eauto|].
    split; [assumption|]. exists (h1 ++ h2). now rewrite app_assoc.
Qed.

Lemma finished_idle s t : TInv s t -> todo (th s t) = [] -> tpc (th s t) = PIdle.
Proof.
  intros I T. destruct (tpc (th s t)) eqn:P; auto; exfalso; apply (ti_busy _ _ I); rewrite ?P; auto; discriminate.
Qed.
Lemma finished_pendings N s : (forall t, TInv s t) -> Finished s -> forall n, pendings N s n = [].
Proof.
  intros I F n. unfold pendings. induction (seq 0 N) as [|t l IH]; [reflexivity|]. simpl. rewrite IH.
  unfold pend_to. rewrite (finished_idle s t (I t) (F t)). reflexivity.
Qed.

Lemma c07 thr g0 progs sched s : Valid g0 progs ->
  exec thr sched (cinit g0 progs) = Some s -> Finished s ->
  exists h G,
    (forall t, map h_call (h_of h t) = nth t progs [] /\ map snd (h_of h t) = rets (th s t)) /\
    run thr g0 (map (fun x => call_op (h_call x)) h) = Some (G, map (fun x => REdge (snd x)) h) /\
    gnodes (cg s) = gnodes G /\
    (forall n, outs (nst (cg s) n) = outs (nst G n) /\ oidx (nst (cg s) n) = oidx (nst G n) /\
               Permutation (ins (nst (cg s) n)) (ins (nst G n))).
Proof.
  intros V E F. destruct (lin_exec thr g0 progs V sched _ _ [] (good_init _ _ _) (lin_init _ _ _) E) as (GD & h & L).
  simpl in L. destruct (li_seq _ _ _ _ _ L) as (G & R & D). exists h, G. split; [|split; [exact R|split]].
  - intros t. pose proof (li_prog _ _ _ _ _ L t) as A. pose proof (li_rets _ _ _ _ _ L t) as B.
    rewrite (finished_idle s t (gd_inv _ _ _ _ GD t) (F t)) in A, B. simpl in A, B. rewrite (F t), app_nil_r in A.
    rewrite app_nil_r in B. auto.
  - symmetry. apply (gr_nodes _ _ _ D).
  - intros n. split; [symmetry; apply (gr_outs _ _ _ D)|]. split; [symmetry; apply (gr_idx _ _ _ D)|].
    rewrite (gr_ins _ _ _ D n), (finished_pendings _ _ (gd_inv _ _ _ _ GD) F n), app_nil_r. reflexivity.
Qed.

(** Real-time order: the history at an intermediate state is a prefix of the final
    one; it holds every call that has returned by then and at most the current call of
    each thread besides. *)
Lemma c07_realtime thr g0 progs s1 s2 st1 st2 : Valid g0 progs ->
  exec thr s1 (cinit g0 progs) = Some st1 -> exec thr s2 st1 = Some st2 ->
  exists h1 h2, Lin thr g0 progs st1 h1 /\ Lin thr g0 progs st2 (h1 ++ h2) /\
    forall t, exists o, map snd (h_of h1 t) = rets (th st1 t) ++ o /\ length o <= 1.
Proof.
  intros V E1 E2. destruct (lin_exec thr g0 progs V s1 _ _ [] (good_init _ _ _) (lin_init _ _ _) E1) as (GD & h & L).
  destruct (lin_exec thr g0 progs V s2 _ _ _ GD L E2) as (GD2 & h2 & L2). exists h, h2. simpl in *.
  split; [exact L|]. split; [exact L2|]. intros t. exists (olist (lin (tpc (th st1 t)))).
  split; [apply (li_rets _ _ _ _ _ L)|]. destruct (lin _); simpl; lia.
Qed.

(** ** Order of parallel edges *)
Definition PairOrder (own : nat -> nat -> nat) (s : cstate) : Prop := forall a b,
  filter (to b) (outs (nst (cg s) a)) =
  filter (from a) (ins (nst (cg s) b)) ++ filter (between a b) (olist (pend (tpc (th s (own a b))))).
Definition own_ok (own : nat -> nat -> nat) (s : cstate) : Prop :=
  forall t c, In c (todo (th s t)) -> own (c_src c) (c_tgt c) = t.

Lemma own_ok_step thr own t s s' : own_ok own s -> cstep thr t s = Some s' -> own_ok own s'.
Proof.
  intros I H u c Hc. apply (I u). destruct (todo_step _ _ _ _ u H) as [E|E]; rewrite E in Hc; [exact Hc|].
  destruct (todo (th s u)); [destruct Hc|now right].
Qed.

Lemma filter_to_from a b e : filter (to b) (filter (from a) [e]) = filter (between a b) [e].
Proof. rewrite filter_filter. reflexivity. Qed.
Lemma filter_from_to a b e : filter (from a) (filter (to b) [e]) = filter (between a b) [e].
Proof. rewrite filter_filter. apply filter_ext. intros x. unfold between, from, to. apply andb_comm. Qed.

Lemma pair_step thr own t s s' : (forall u, TInv s u) -> own_ok own s -> PairOrder own s ->
  cstep thr t s = Some s' -> PairOrder own s'.
Proof.
  intros I OK PO H. pose proof (st_th _ _ _ (step_inv _ _ _ _ (I t) H)) as HU.
  unfold cstep in H. destruct (todo (th s t)) as [|c r] eqn:T; [discriminate|].
  assert (OC : own (c_src c) (c_tgt c) = t) by (apply OK; rewrite T; now left).
  pose proof (fun e => ti_ends _ _ (I t) c r e T) as EN.
  assert (SIL : cg s' = cg s -> pend (tpc (th s' t)) = pend (tpc (th s t)) -> PairOrder own s').
  { intros H1 H2 a b. rewrite H1. destruct (Nat.eq_dec (own a b) t) as [E|N].
    - rewrite E, H2, <- E. apply PO.
    - rewrite HU by assumption. apply PO. }
  assert (BT : forall a b e, own a b <> t -> esrc e = c_src c -> etgt e = c_tgt c -> filter (between a b) [e] = []).
  { intros a b e N H1 H2. simpl. unfold between. rewrite H1, H2.
    destruct (Nat.eqb_spec (c_src c) a), (Nat.eqb_spec (c_tgt c) b); simpl; auto. subst. tauto. }
  assert (PUSH : forall (p' : edge -> pc), pend (tpc (th s t)) = None -> (forall e, pend (p' e) = Some e) ->
      s' = (let (g, e) := pushOut thr (cg s) (c_src c) (c_tgt c) in
            if Nat.eqb (c_src c) (c_tgt c) then go (setg s (pushIn g e)) t (PRet e) else go (setg s g) t (p' e)) ->
      PairOrder own s').
  { intros p' P HP' E a b. set (e := Edge (nexte (cg s)) (c_src c) (c_tgt c)).
    destruct (pushOut thr (cg s) (c_src c) (c_tgt c)) as [g e0] eqn:PUO.
    assert (E0 : e0 = e) by (unfold pushOut in PUO; injection PUO as _ <-; reflexivity).
    assert (Eg : g = fst (pushOut thr (cg s) (c_src c) (c_tgt c))) by now rewrite PUO.
    assert (O : filter (to b) (outs (nst g a)) = filter (to b) (outs (nst (cg s) a)) ++ filter (between a b) [e]).
    { rewrite Eg, pushOut_outs, filter_app'. fold e. now rewrite filter_to_from. }
    assert (HI : ins (nst g b) = ins (nst (cg s) b)) by (rewrite Eg; apply pushOut_ins).
    destruct (Nat.eqb (c_src c) (c_tgt c)); rewrite E, E0; cbn [cg th go setg].
    - rewrite pushIn_outs, O, pushIn_ins, HI, filter_app', filter_from_to, (PO a b), <- !app_assoc. f_equal.
      destruct (Nat.eq_dec (own a b) t) as [Eo|N].
      + rewrite Eo, P, upd_same. simpl. now rewrite app_nil_r.
      + rewrite upd_other by assumption. rewrite (BT a b e N eq_refl eq_refl). now rewrite app_nil_r.
    - rewrite O, HI, (PO a b), <- app_assoc. f_equal. destruct (Nat.eq_dec (own a b) t) as [Eo|N].
      + rewrite Eo, P, upd_same. simpl tpc. rewrite HP'. reflexivity.
      + rewrite upd_other by assumption. rewrite (BT a b e N eq_refl eq_refl). apply app_nil_r. }
  assert (DEL : forall e p', pend (tpc (th s t)) = Some e -> pend (p' e) = None ->
      s' = go (setg s (pushIn (cg s) e)) t (p' e) -> PairOrder own s').
  { intros e p' P HP' -> a b. cbn [cg th go setg]. rewrite pushIn_outs, pushIn_ins, filter_app', filter_from_to, (PO a b), <- app_assoc.
    f_equal. destruct (EN e (or_introl P)) as (E1 & E2 & _). destruct (Nat.eq_dec (own a b) t) as [Eo|N].
    - rewrite Eo, P, upd_same. simpl tpc. rewrite HP'. simpl olist. rewrite app_nil_r. reflexivity.
    - rewrite upd_other by assumption. rewrite (BT a b e N E1 E2). reflexivity. }
  destruct (tpc (th s t)) eqn:P; unfold acquire in H;
    repeat match type of H with
    | context [match lk s ?n with _ => _ end] => destruct (lk s n); [discriminate|]
    | context [match lookupOutEdge ?x ?y with _ => _ end] => destruct (lookupOutEdge x y)
    end;
    try (injection H as <-; apply SIL; [reflexivity|simpl; rewrite upd_same; simpl; destruct c; reflexivity]).
  - apply (PUSH PWantB); auto. destruct (pushOut thr (cg s) (c_src c) (c_tgt c)). destruct (Nat.eqb _ _); congruence.
  - apply (DEL e PRelB); auto. congruence.
  - apply (PUSH PNewRelA); auto. destruct (pushOut thr (cg s) (c_src c) (c_tgt c)). destruct (Nat.eqb _ _); congruence.
  - apply (DEL e PNewRelB); auto. congruence.
Qed.

Lemma run_app thr : forall os1 g os2 G1 x1, run thr g os1 = Some (G1, x1) ->
  run thr g (os1 ++ os2) = match run thr G1 os2 with Some (G, x2) => Some (G, x1 ++ x2) | None => None end.
Proof.
  induction os1 as [|o os IH]; intros g os2 G1 x1 H; simpl in *.
  - injection H as <- <-. destruct (run thr g os2) as [[? ?]|]; reflexivity.
  - destruct (step thr g o) as [[g1 y]|]; [|discriminate]. destruct (run thr g1 os) as [[g2 ys]|] eqn:E; [|discriminate].
    injection H as <- <-. rewrite (IH _ os2 _ _ E). destruct (run thr g2 os2) as [[? ?]|]; reflexivity.
Qed.
Lemma reachable_run thr g os G xs : reachable thr g -> run thr g os = Some (G, xs) -> reachable thr G.
Proof.
  intros (os0 & x0 & H0) H. exists (os0 ++ os), (x0 ++ xs). rewrite (run_app _ _ _ _ _ _ H0). now rewrite H.
Qed.

(** Both ends agree, whatever the interleaving. *)
Lemma c07_ends thr g0 progs sched s : reachable thr g0 -> Valid g0 progs ->
  exec thr sched (cinit g0 progs) = Some s -> Finished s ->
  forall a b, Permutation (filter (to b) (outs (nst (cg s) a))) (filter (from a) (ins (nst (cg s) b))) /\
    NoDup (outs (nst (cg s) a)) /\ NoDup (ins (nst (cg s) b)) /\
    (forall e, In e (outs (nst (cg s) a)) -> esrc e = a /\ In (etgt e) (gnodes (cg s)) /\ In e (ins (nst (cg s) (etgt e)))) /\
    (forall e, In e (ins (nst (cg s) b)) -> etgt e = b /\ In (esrc e) (gnodes (cg s)) /\ In e (outs (nst (cg s) (esrc e)))).
Proof.
  intros RG V E F a b. destruct (c07 _ _ _ _ _ V E F) as (h & G & _ & R & HN & HG).
  pose proof (c01 _ _ (reachable_run _ _ _ _ _ RG R)) as M.
  assert (PF : forall (p : edge -> bool) l l', Permutation l l' -> Permutation (filter p l) (filter p l')).
  { clear. intros p l l' H. induction H; simpl.
    - constructor.
    - destruct (p x); [now constructor|assumption].
    - destruct (p x), (p y); try constructor; reflexivity.
    - etransitivity; eauto. }
  split; [|split; [|split; [|split]]].
  - rewrite (proj1 (HG a)), (mir_order _ M). apply PF. symmetry. apply HG.
  - rewrite (proj1 (HG a)). apply (mir_nodup_out _ M).
  - destruct (HG b) as (_ & _ & P). apply (Permutation_NoDup (l := ins (nst G b))); [now symmetry|apply (mir_nodup_in _ M)].
  - intros e He. rewrite (proj1 (HG a)) in He. destruct (mir_out _ M _ _ He) as (E1 & E2 & E3 & E4).
    rewrite HN. repeat split; auto. destruct (HG (etgt e)) as (_ & _ & P). eapply Permutation_in; [symmetry; exact P|exact E4].
  - intros e He. destruct (HG b) as (_ & _ & P). apply (Permutation_in _ P) in He.
    destruct (mir_in _ M _ _ He) as (E1 & E2 & E3 & E4). rewrite HN. repeat split; auto.
    now rewrite (proj1 (HG (esrc e))).
Qed.

(** With one owner per ordered pair the two ends also agree on the order of parallel
    edges, which is what a later removeEdge relies on. *)
Lemma c07_order thr own g0 progs sched s : reachable thr g0 -> Owned own progs ->
  exec thr sched (cinit g0 progs) = Some s -> Finished s ->
  forall a b, filter (to b) (outs (nst (cg s) a)) = filter (from a) (ins (nst (cg s) b)).
Proof.
  intros RG O E F a b.
  assert (H : (forall u, TInv s u) /\ own_ok own s /\ PairOrder own s).
  { apply (exec_ind thr (fun s => (forall u, TInv s u) /\ own_ok own s /\ PairOrder own s)) with (sched := sched) (s := cinit g0 progs); auto.
    - intros s1 s2 t (H1 & H2 & H3) C. split; [eapply tinv_step; eauto|].
      split; [eapply own_ok_step; eauto|eapply pair_step; eauto].
    - split; [apply tinv_init|]. split; [exact O|]. intros x y. simpl. rewrite app_nil_r.
      apply (mir_order _ (c01 _ _ RG)). }
  destruct H as (I & _ & PO). rewrite (PO a b), (finished_idle s _ (I _) (F _)). simpl. apply app_nil_r.
Qed.

(** ** addEdge only *)
Definition all_add (progs : list (list call)) : Prop := forall p c, In p progs -> In c p -> exists a b, c = CAdd a b.

Lemma in_h_of h x : In x h -> In x (h_of h (h_thread x)).
Proof. intros H. unfold h_of. apply filter_In. split; [exact H|]. apply Nat.eqb_refl. Qed.

(** Results of a run that only adds edges are edges of the final graph. *)
Lemma run_adds_in thr : forall cs g G xs, reachable thr g ->
  run thr g (map call_op cs) = Some (G, xs) ->
  (forall a e, In e (outs (nst g a)) -> In e (outs (nst G a))) /\
  forall i c e, nth_error cs i = Some c -> nth_error xs i = Some (REdge e) ->
    In e (outs (nst G (c_src c))) /\ etgt e = c_tgt c.
Proof.
  induction cs as [|c cs IH]; intros g G xs RG H.
  - simpl in H. injection H as <- <-. split; [auto|]. intros [|i] c e Hi; discriminate.
  - cbn [map run] in H. destruct (step thr g (call_op c)) as [[g1 x]|] eqn:S; [|discriminate].
    destruct (run thr g1 (map call_op cs)) as [[g2 ys]|] eqn:E; [|discriminate]. injection H as <- <-.
    pose proof (reachable_step _ _ _ _ _ RG S) as RG1. destruct (IH _ _ _ RG1 E) as [K1 K2].
    assert (ST : (forall a e, In e (outs (nst g a)) -> In e (outs (nst g1 a))) /\
                 forall e, x = REdge e -> In e (outs (nst g1 (c_src c))) /\ etgt e = c_tgt c).
    { destruct c as [a b|a b]; cbn [call_op step] in S; cbn [c_src c_tgt].
      - unfold g_addEdge in S. destruct (hasNode g a) eqn:Ha; [|discriminate].
        destruct (hasNode g b) eqn:Hb; [|discriminate]. cbn [andb option_map] in S.
        destruct (addEdge_cases thr g a b RG Ha Hb) as (g' & e' & A & B1 & B2 & C).
        unfold g_addEdge in A. rewrite Ha, Hb in A. cbn [andb] in A. injection A as A. rewrite A in S.
        cbn [fst snd] in S. injection S as <- <-. destruct C as [[C ->]|(C & _ & C1 & C2 & C3 & _)].
        + split; [auto|]. intros e [= <-]. unfold findEdgeTo in C. apply find_some in C. tauto.
        + split.
          * intros y e He. destruct (Nat.eq_dec y a) as [->|N]; [rewrite C1; apply in_app_iff; auto|now rewrite C3].
          * intros e [= <-]. rewrite C1. split; [apply in_app_iff; right; now left|assumption].
      - unfold g_addNewEdge in S. destruct (hasNode g a && hasNode g b); [|discriminate].
        cbn [option_map] in S. unfold node_addNewEdge in S.
        assert (SG : g1 = fst (pushEdge thr g a b) /\ x = REdge (snd (pushEdge thr g a b))).
        { destruct (pushEdge thr g a b). cbn [fst snd] in *. split; congruence. }
        destruct SG as [-> ->]. split.
        + intros y e He. rewrite pushEdge_outs. destruct (Nat.eqb y a); [apply in_app_iff; auto|auto].
        + intros e X. assert (e = Edge (nexte g) a b) as -> by (unfold pushEdge in X; cbn [snd] in X; congruence).
          rewrite pushEdge_outs, Nat.eqb_refl. split; [apply in_app_iff; right; now left|reflexivity]. }
    destruct ST as [S1 S2]. split.
    + intros a e He. apply K1, S1, He.
    + intros [|i] c' e Hi Hx; simpl in Hi, Hx.
      * injection Hi as <-. injection Hx as ->. destruct (S2 e eq_refl) as [A B]. split; [now apply K1|assumption].
      * eapply K2; eauto.
Qed.

Lemma c07_unique thr os0 g0 rs0 progs sched s :
  forallb no_new os0 = true -> run thr empty_graph os0 = Some (g0, rs0) -> all_add progs ->
  Valid g0 progs -> exec thr sched (cinit g0 progs) = Some s -> Finished s ->
  (forall a b, length (filter (to b) (outs (nst (cg s) a))) <= 1) /\
  (forall t i c e, nth_error (nth t progs []) i = Some c -> nth_error (rets (th s t)) i = Some e ->
     filter (to (c_tgt c)) (outs (nst (cg s) (c_src c))) = [e]).
Proof.
  intros N0 R0 AA V E F. destruct (c07 _ _ _ _ _ V E F) as (h & G & HH & R & HN & HG).
  assert (RA : run thr empty_graph (os0 ++ map (fun x => call_op (h_call x)) h) = Some (G, rs0 ++ map (fun x => REdge (snd x)) h)).
  { rewrite (run_app _ _ _ _ _ _ R0). now rewrite R. }
  assert (NN : forallb no_new (os0 ++ map (fun x => call_op (h_call x)) h) = true).
  { rewrite forallb_app, N0. simpl. apply forallb_forall. intros o Ho. apply in_map_iff in Ho.
    destruct Ho as (x & <- & Hx). assert (Hc : In (h_call x) (nth (h_thread x) progs [])).
    { rewrite <- (proj1 (HH (h_thread x))). apply in_map. now apply in_h_of. }
    destruct (AA (nth (h_thread x) progs []) (h_call x)) as (a & b & ->); auto.
    destruct (le_lt_dec (length progs) (h_thread x)) as [L|L]; [rewrite nth_overflow in Hc by assumption; destruct Hc|now apply nth_In]. }
  pose proof (c03_simple _ _ _ _ NN RA) as SI. unfold getEdgesTo in SI. split.
  - intros a b. rewrite (proj1 (HG a)). apply SI.
  - intros t i c e Hc He. 
    assert (HX : exists x, In x h /\ h_call x = c /\ snd x = e).
    { rewrite <- (proj1 (HH t)) in Hc. rewrite <- (proj2 (HH t)) in He.
      rewrite nth_error_map in Hc, He. destruct (nth_error (h_of h t) i) as [x|] eqn:X; [|discriminate].
      injection Hc as <-. injection He as <-. exists x. split; [|auto].
      apply nth_error_In in X. unfold h_of in X. apply filter_In in X. tauto. }
    destruct HX as (x & Hx & <- & <-). apply In_nth_error in Hx. destruct Hx as [k Hk].
    assert (RG : reachable thr g0) by (exists os0, rs0; exact R0).
    rewrite <- (map_map h_call call_op) in R.
    destruct (run_adds_in thr (map h_call h) g0 G _ RG R) as [_ K].
    destruct (K k (h_call x) (snd x)) as [K1 K2].
    { rewrite nth_error_map, Hk. reflexivity. }
    { rewrite nth_error_map, Hk. reflexivity. }
    rewrite (proj1 (HG _)). specialize (SI (c_src (h_call x)) (c_tgt (h_call x))).
    assert (IN : In (snd x) (filter (to (c_tgt (h_call x))) (outs (nst G (c_src (h_call x)))))).
    { apply filter_In. split; [exact K1|]. unfold to. now apply Nat.eqb_eq. }
    destruct (filter _ _) as [|y [|z l]]; [destruct IN| |simpl in SI; lia]. destruct IN as [->|[]]. reflexivity.
Qed.
