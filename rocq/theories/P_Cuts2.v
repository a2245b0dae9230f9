(** The traversal visits instances before what they contain. *)
From Verif Require Import Base M_Graph M_Range M_Netlist M_Text S_Text P_Text M_Annot M_Interval M_Heap M_Drivers M_Pending M_DFA M_Builder M_Slice M_Port M_Inst M_Flow
  S_Inst S_Slice S_Port S_Flow S_Cuts S_Cuts2 P_Inst P_Inst2.

Section L.
Context {V : Type}.
Notation sym := (@sym V).
Variable owner_of : nat -> nat.
Variable pats : list str.

Definition named_in (q : nat) (x : @pconn V) : Prop := forall e s k, cactual x = Some e -> In (s, k) (lbits e) -> owner_of s = q.
Definition holds (i : nat) (x : @pconn V) : Prop := forall s, cinternal x = Some s -> owner_of s = i.
(** [S]: the instances that names can be in. *)
Definition good (S : nat -> Prop) (evs : list iev) : Prop :=
  forall l1 i cs l2, evs = l1 ++ VCuts i cs :: l2 ->
    (forall x, In x cs -> holds i x) /\ exists q, S q /\ (forall x, In x cs -> named_in q x) /\ forall j cs', In (VCuts j cs') (VCuts i cs :: l2) -> j <> q.
Lemma no_cuts S evs : (forall i cs, ~ In (VCuts i cs) evs) -> good S evs.
Proof. intros N l1 i cs l2 ->. exfalso. apply (N i cs), in_or_app. right. now left. Qed.

Lemma all_scoped own (ms : list sym) : fold_right (fun m P => scoped owner_of own m /\ P) True ms -> forall m, In m ms -> scoped owner_of own m.
Proof. induction ms as [|x ms IH]; intros H m I; [destruct I|]. destruct H as [A B]. destruct I as [<-|I]; auto. Qed.
Lemma cuts_ids own (y : sym) evs j cs : handle pats true own y = Some evs -> In (VCuts j cs) evs -> In j (ids y).
Proof. intros E I. apply (proj2 (handle_spec pats true y own) _ E) in I. eapply emits_cuts_owner; eauto. Qed.

Lemma seq_good own (ms : list sym) cs : NoDup (flat_map ids ms) -> ~ In own (flat_map ids ms) ->
  (forall y evs, In y ms -> handle pats true own y = Some evs -> good (fun q => q = own \/ In q (ids y)) evs) ->
  map (handle pats true own) ms = map Some cs -> good (fun q => q = own \/ In q (flat_map ids ms)) (concat cs).
Proof.
  intros N No H E l1 i c l2 Q. apply split_concat in Q. destruct Q as (c1 & a & b & c2 & -> & _ & ->).
  apply map_some_split in E. destruct E as (m1 & y & m2 & -> & _ & E & E2).
  assert (Iy : In y (m1 ++ y :: m2)) by (apply in_app_iff; right; now left).
  destruct (H y _ Iy E a i c b eq_refl) as (Ho & q & Sq & Nq & Aq). split; [exact Ho|]. exists q. split; [|split; [exact Nq|]].
  { destruct Sq as [Sq|Sq]; [now left|]. right. apply in_flat_map. eauto. }
  intros j cs' J. assert (J' : In (VCuts j cs') (VCuts i c :: b) \/ In (VCuts j cs') (concat c2)) by (destruct J as [J|J]; [left; now left|apply in_app_or in J; destruct J; [left; now right|now right]]).
  destruct J' as [J'|J']; [eapply Aq; eauto|]. apply (map_some_in _ _ _ E2) in J'. destruct J' as (z & r & Iz & Er & J'). pose proof (cuts_ids own z r j cs' Er J') as Kz.
  intros ->. destruct Sq as [ -> |Sq]; [apply No, in_flat_map; exists z; split; [apply in_or_app; right; now right|exact Kz]|]. exact (ids_apart m1 y m2 z q N Iz Sq Kz).
Qed.

Lemma handle_good : forall (y : sym) own evs, handle pats true own y = Some evs -> scoped owner_of own y -> NoDup (ids y) -> ~ In own (ids y) ->
  good (fun q => q = own \/ In q (ids y)) evs.
Proof.
  apply (sym_rect' (fun y => forall own evs, handle pats true own y = Some evs -> scoped owner_of own y -> NoDup (ids y) -> ~ In own (ids y) ->
    good (fun q => q = own \/ In q (ids y)) evs)).
  - intros p int ds own evs [= <-] _ _ _. apply no_cuts. intros i cs [Q|[]]. discriminate.
  - intros s b ds own evs [= <-] _ _ _. apply no_cuts. intros i cs I. destruct b; [|destruct I]. destruct I as [Q|[]]. discriminate.
  - intros i b own evs [= <-] _ _ _. apply no_cuts. intros i' cs [Q|[]]. discriminate.
  - intros u ms IH own evs E Sc N No. rewrite Forall_forall in IH. cbn [handle ids] in *. destruct u; [injection E as <-; apply no_cuts; intros i cs []|].
    apply seqo_some in E. destruct E as (cs & E & ->). apply seq_good; auto. intros y evs I Ey.
    apply (IH y I own evs Ey); [exact (all_scoped own ms Sc y I)|now apply (flat_nodup_in ms)|intros J; apply No, in_flat_map; eauto].
  - intros ms IH own evs E Sc N No. rewrite Forall_forall in IH. cbn [handle ids] in *.
    apply seqo_some in E. destruct E as (cs & E & ->). apply seq_good; auto. intros y evs I Ey.
    apply (IH y I own evs Ey); [exact (all_scoped own ms Sc y I)|now apply (flat_nodup_in ms)|intros J; apply No, in_flat_map; eauto].
  - intros own evs [= <-] _ _ _. apply no_cuts. intros i cs [].
  - intros i path def u ms cs IH own evs E Sc N No. pose proof E as E0. rewrite Forall_forall in IH. cbn [handle] in E. destruct u; [injection E as <-; apply no_cuts; intros k c []|].
    destruct Sc as [Sc Sm]. cbn [ids] in N, No. inversion N as [|? ? Ni Nm]; subst.
    destruct (isBlackBoxInstance pats path def) as [bb|]; [|discriminate].
    apply seqo_some in E. destruct E as (ch & E & ->). destruct ch as [|c1 [|c2 ch]]; try discriminate. injection E as E1 E2 E3. subst c1.
    assert (Nc : forall k c, ~ In (VCuts k c) (concat ch)).
    { intros k c I. apply (map_some_in _ _ _ E3) in I. destruct I as (x & r & _ & Er & I).
      destruct x; cbn in Er; try discriminate; injection Er as <-; [destruct I as [Q|[]]; discriminate|destruct I]. }
    assert (Bd : good (fun q => q = i \/ In q (flat_map ids ms)) c2).
    { destruct bb.
      - injection E2 as <-. apply no_cuts. intros k c [Q|I]; [discriminate|]. apply box_ports_in in I. destruct I as (? & ? & ? & _ & Q). discriminate.
      - apply seqo_some in E2. destruct E2 as (cc & E2 & ->). apply seq_good; auto. intros y evs I Ey.
        apply (IH y I i evs Ey); [exact (all_scoped i ms Sm y I)|now apply (flat_nodup_in ms)|intros J; apply Ni, in_flat_map; eauto]. }
    intros l1 k c l2 Q. destruct l1 as [|x l1].
    + cbn [concat app] in Q. injection Q as <- <- Q. split; [intros x I; exact (proj1 (Sc x I))|]. exists own. split; [now left|]. split; [intros x I; exact (proj2 (Sc x I))|].
      intros j cs' J. cbn [ids] in No. intros ->. apply No. assert (K : In own (ids (YInst i path def false ms cs))); [|exact K].
      eapply (cuts_ids own); [exact E0|]. cbn [concat app]. rewrite Q. exact J.
    + cbn [concat app] in Q. injection Q as <- Q. assert (Ik : In (VCuts k c) c2).
      { assert (I : In (VCuts k c) (c2 ++ concat ch)) by (rewrite Q; apply in_or_app; right; now left). apply in_app_or in I. destruct I as [I|I]; [exact I|destruct (Nc _ _ I)]. }
      assert (Q' : concat [c2; concat ch] = l1 ++ VCuts k c :: l2) by (cbn; rewrite app_nil_r; exact Q).
      apply split_concat in Q'. destruct Q' as (d1 & a & b & d2 & Ec & _ & ->). destruct d1 as [|y d1]; cbn [app] in Ec.
      * injection Ec as Ec <-. destruct (Bd a k c b Ec) as (Ho & q & Sq & Nq & Aq). split; [exact Ho|]. exists q. split; [right; cbn [ids]; destruct Sq as [ -> |Sq]; [now left|now right]|].
        split; [exact Nq|]. intros j cs' [J|J]; [apply (Aq j cs'); now left|]. apply in_app_or in J. destruct J as [J|J]; [apply (Aq j cs'); now right|]. cbn in J. rewrite app_nil_r in J. destruct (Nc _ _ J).
      * exfalso. injection Ec as _ Ec. destruct d1 as [|z d1]; cbn [app] in Ec; [|destruct d1; discriminate]. injection Ec as Ec _. apply (Nc k c). rewrite Ec. apply in_or_app. right. now left.
Qed.

Lemma traverse_good own (tops : list sym) evs : traverse pats true own tops = Some evs -> (forall t, In t tops -> scoped owner_of own t) -> NoDup (flat_map ids tops) -> ~ In own (flat_map ids tops) ->
  good (fun q => q = own \/ In q (flat_map ids tops)) evs.
Proof.
  intros E Sc N No. unfold traverse in E. apply seqo_some in E. destruct E as (cs & E & ->). apply seq_good; auto. intros y evs I Ey.
  apply (handle_good y own evs Ey); [now apply Sc|now apply (flat_nodup_in tops)|intros J; apply No, in_flat_map; eauto].
Qed.

Lemma visit_order own (tops : list sym) evs conns : traverse pats true own tops = Some evs -> (forall t, In t tops -> scoped owner_of own t) -> NoDup (flat_map ids tops) -> ~ In own (flat_map ids tops) ->
  map seen conns = cut_conns evs -> outer_first conns.
Proof.
  intros E Sc N No Q p c q s k c' Ec _ I J. pose proof (traverse_good own tops evs E Sc N No) as G.
  rewrite Ec, map_app in Q. cbn [map] in Q. unfold cut_conns in Q. rewrite flat_map_concat_map in Q. symmetry in Q. apply split_concat in Q. destruct Q as (d1 & a & b & d2 & Ed & _ & Eq).
  assert (Sp : exists e1 e e2, evs = e1 ++ e :: e2 /\ (match e with VCuts _ cs => cs | _ => [] end) = a ++ seen c :: b /\ map (fun e => match e with VCuts _ cs => cs | _ => [] end) e2 = d2).
  { clear -Ed. revert evs Ed. induction d1 as [|x d1 IH]; intros [|e evs] Ed; cbn in Ed; try discriminate; injection Ed as E1 E2.
    - exists [], e, evs. auto.
    - destruct (IH evs E2) as (e1 & e' & e2 & -> & B). exists (e :: e1), e', e2. auto. }
  destruct Sp as (e1 & e & e2 & -> & Ee & <-). destruct e as [i cs| | | | |]; try (destruct a; discriminate). subst cs.
  destruct (G e1 i _ e2 eq_refl) as (Ho & r & _ & Nr & Ar). assert (Os : owner_of s = r) by (apply (Nr (seen c)) with (e := fc_actual c) (k := k); [apply in_or_app; right; now left|reflexivity|exact I]).
  assert (K : exists j cs', In (VCuts j cs') (VCuts i (a ++ seen c :: b) :: e2) /\ In (seen c') cs').
  { destruct J as [<-|J]; [exists i; eexists; split; [now left|apply in_or_app; right; now left]|]. apply (in_map seen) in J. rewrite Eq in J. apply in_app_or in J. destruct J as [J|J].
    - exists i. eexists. split; [now left|]. apply in_or_app. right. now right.
    - rewrite <- flat_map_concat_map in J. apply in_flat_map in J. destruct J as (e & Ie & J). destruct e as [j cs'| | | | |]; try destruct J. exists j, cs'. split; [now right|exact J]. }
  destruct K as (j & cs' & K & Ic). assert (Oj : owner_of (fc_sy c') = j).
  { destruct K as [K|K].
    - injection K as <- <-. exact (Ho _ Ic _ eq_refl).
    - apply in_split in K. destruct K as (f1 & f2 & ->). destruct (G (e1 ++ VCuts i (a ++ seen c :: b) :: f1) j cs' f2) as (Hj & _); [now rewrite <- app_assoc|]. exact (Hj _ Ic _ eq_refl). }
  intros Q. apply (Ar j cs' K). rewrite <- Oj, Q. exact Os.
Qed.
End L.
