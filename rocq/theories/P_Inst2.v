(** The order of the collecting traversal. *)
From Verif Require Import Base M_Graph M_Range M_Netlist M_Text S_Text P_Text M_Annot M_Interval M_Heap M_Drivers M_Pending M_DFA M_Builder M_Slice M_Port M_Inst S_Inst P_Inst.

Lemma split_concat {A} : forall (cs : list (list A)) l1 e l2, concat cs = l1 ++ e :: l2 ->
  exists c1 a b c2, cs = c1 ++ (a ++ e :: b) :: c2 /\ l1 = concat c1 ++ a /\ l2 = b ++ concat c2.
Proof.
  induction cs as [|c cs IH]; intros l1 e l2 E; cbn in E; [destruct l1; discriminate|].
  apply app_eq_app in E. destruct E as (k & [[E1 E2]|[E1 E2]]).
  - destruct k as [|x k].
    + cbn in E2. rewrite app_nil_r in E1. subst c. destruct (IH [] e l2 (eq_sym E2)) as (c1 & a & b & c2 & Ec & Ea & Eb).
      exists (l1 :: c1), a, b, c2. subst cs. split; [reflexivity|]. cbn. rewrite <- app_assoc, <- Ea, app_nil_r. auto.
    + cbn in E2. injection E2 as E2 E3. subst x. exists [], l1, k, cs. subst. auto.
  - destruct (IH k e l2 E2) as (c1 & a & b & c2 & Ec & Ea & Eb).
    exists (c :: c1), a, b, c2. subst. cbn. rewrite <- app_assoc. auto.
Qed.
Lemma map_some_split {A B} (f : A -> option (list B)) : forall l c1 c c2, map f l = map Some (c1 ++ c :: c2) ->
  exists l1 x l2, l = l1 ++ x :: l2 /\ map f l1 = map Some c1 /\ f x = Some c /\ map f l2 = map Some c2.
Proof.
  induction l as [|y l IH]; intros c1 c c2 E; [destruct c1; discriminate|]. destruct c1 as [|d c1]; cbn in E; injection E as E1 E2.
  - exists [], y, l. auto.
  - destruct (IH c1 c c2 E2) as (l1 & x & l2 & -> & F1 & F2 & F3). exists (y :: l1), x, l2. cbn. split; [reflexivity|]. split; [congruence|auto].
Qed.

Section O.
Context {V : Type}.
Notation sym := (@sym V).
Notation iev := (@iev V).
Variable pats : list str.

(** Cuts first. *)
Definition led (own : nat) (evs : list iev) : Prop :=
  forall l1 e l2, evs = l1 ++ e :: l2 -> owner e = own \/ exists c, In (VCuts (owner e) c) (l1 ++ [e]).
Lemma led_concat own cs : (forall c, In c cs -> led own c) -> led own (concat cs).
Proof.
  intros H l1 e l2 E. apply split_concat in E. destruct E as (c1 & a & b & c2 & -> & -> & ->).
  destruct (H (a ++ e :: b)) with (l1 := a) (e := e) (l2 := b) as [Q|(c & I)]; [apply in_app_iff; right; now left|reflexivity|now left|].
  right. exists c. rewrite <- app_assoc. apply in_app_iff. now right.
Qed.
Lemma led_weaken i own (e0 : iev) rest : (exists c, e0 = VCuts i c) -> led i rest -> led own (e0 :: rest).
Proof.
  intros (c & ->) H l1 e l2 E. right. destruct l1 as [|z l1]; cbn in E; injection E as E1 E2.
  - subst e. exists c. now left.
  - subst z. destruct (H l1 e l2 E2) as [<-|(c' & I)]; [exists c; now left|exists c'; now right].
Qed.
Lemma led_own own (evs : list iev) : (forall e, In e evs -> owner e = own) -> led own evs.
Proof. intros H l1 e l2 ->. left. apply H, in_app_iff. right. now left. Qed.
Lemma handle_led : forall y own evs, handle pats true own y = Some evs -> led own evs.
Proof.
  apply (sym_rect' (fun y => forall own evs, handle pats true own y = Some evs -> led own evs)).
  - intros p int ds own evs [= <-]. apply led_own. intros e [<-|[]]. reflexivity.
  - intros s b ds own evs [= <-]. apply led_own. intros e I. destruct b; [destruct I as [<-|[]]; reflexivity|destruct I].
  - intros i b own evs [= <-]. apply led_own. intros e [<-|[]]. reflexivity.
  - intros u ms IH own evs E. rewrite Forall_forall in IH. cbn [handle] in E. destruct u; [injection E as <-; apply led_own; intros e []|].
    apply seqo_some in E. destruct E as (cs & E & ->). apply led_concat. intros c I. apply in_split in I. destruct I as (c1 & c2 & ->).
    apply map_some_split in E. destruct E as (l1 & x & l2 & -> & _ & E & _). apply (IH x); [apply in_app_iff; right; now left|exact E].
  - intros ms IH own evs E. rewrite Forall_forall in IH. cbn [handle] in E.
    apply seqo_some in E. destruct E as (cs & E & ->). apply led_concat. intros c I. apply in_split in I. destruct I as (c1 & c2 & ->).
    apply map_some_split in E. destruct E as (l1 & x & l2 & -> & _ & E & _). apply (IH x); [apply in_app_iff; right; now left|exact E].
  - intros own evs [= <-]. apply led_own. intros e [].
  - intros i path def u ms cs IH own evs E. rewrite Forall_forall in IH. cbn [handle] in E. destruct u; [injection E as <-; apply led_own; intros e []|].
    destruct (isBlackBoxInstance pats path def) as [bb|]; [|discriminate].
    apply seqo_some in E. destruct E as (ch & E & ->). destruct ch as [|c1 [|c2 ch]]; try discriminate. injection E as E1 E2 E3. subst c1.
    cbn [concat]. apply (led_weaken i); [eauto|]. change (led i (concat (c2 :: ch))). apply led_concat. intros c [<-|I].
    + destruct bb.
      * injection E2 as <-. apply led_own. intros e [<-|I]; [reflexivity|]. apply box_ports_in in I. destruct I as (p & int & ds & _ & ->). reflexivity.
      * apply seqo_some in E2. destruct E2 as (cc & E2 & ->). apply led_concat. intros c I. apply in_split in I. destruct I as (d1 & d2 & ->).
        apply map_some_split in E2. destruct E2 as (l1 & x & l2 & -> & _ & E & _). apply (IH x); [apply in_app_iff; right; now left|exact E].
    + apply led_own. intros e Ie. apply in_split in I. destruct I as (d1 & d2 & ->). apply map_some_split in E3. destruct E3 as (l1 & x & l2 & _ & _ & E & _).
      destruct x; cbn in E; try discriminate; injection E as <-; [destruct Ie as [<-|[]]; reflexivity|destruct Ie].
Qed.

Lemma ids_apart (l1 : list sym) y l2 z k : NoDup (flat_map ids (l1 ++ y :: l2)) -> In z l2 -> In k (ids y) -> In k (ids z) -> False.
Proof.
  rewrite flat_map_app. cbn. intros N Iz Ky Kz. assert (N2 : NoDup (ids y ++ flat_map ids l2)) by (induction (flat_map ids l1); [exact N|inversion N; auto]).
  clear N. assert (K2 : In k (flat_map ids l2)) by (apply in_flat_map; eauto). induction (ids y) as [|a l IH]; [destruct Ky|].
  cbn in N2. inversion N2; subst. destruct Ky as [<-|Ky]; [apply H1, in_app_iff; auto|auto].
Qed.
Lemma conn_owner prop : forall own (y : sym) e, emits pats prop own y e -> forall i p o x, e = VConn i p o x -> In i (ids y).
Proof.
  intros own y e M. induction M; intros i' p' o' x' Q; try discriminate; cbn [ids].
  - apply in_flat_map. exists y. eauto.
  - apply in_flat_map. exists y. eauto.
  - right. apply in_flat_map. exists y. eauto.
  - injection Q as <- _ _ _. now left.
Qed.
(** Connections last. *)
Definition is_conn (e : iev) : Prop := match e with VConn _ _ _ _ => True | _ => False end.
Definition last_ok (evs : list iev) : Prop :=
  forall l1 i p o x l2, evs = l1 ++ VConn i p o x :: l2 -> forall e, In e l2 -> owner e = i -> is_conn e.
Lemma seq_last prop own (ms : list sym) cs : NoDup (flat_map ids ms) -> ~ In own (flat_map ids ms) ->
  (forall y evs, In y ms -> handle pats prop own y = Some evs -> last_ok evs) ->
  map (handle pats prop own) ms = map Some cs -> last_ok (concat cs).
Proof.
  intros N No H E l1 i p o x l2 Q e I Oe. apply split_concat in Q. destruct Q as (c1 & a & b & c2 & -> & _ & ->).
  apply map_some_split in E. destruct E as (m1 & y & m2 & -> & _ & E & E2).
  assert (Iy : In y (m1 ++ y :: m2)) by (apply in_app_iff; right; now left).
  apply in_app_iff in I. destruct I as [I|I]; [exact (H y _ Iy E a i p o x b eq_refl e I Oe)|]. exfalso.
  assert (Ki : In i (ids y)).
  { apply (conn_owner prop own y (VConn i p o x)) with (p := p) (o := o) (x := x); [|reflexivity].
    apply (proj2 (handle_spec pats prop y own) _ E). apply in_app_iff. right. now left. }
  apply (map_some_in _ _ _ E2) in I. destruct I as (z & r & Iz & Er & Ie).
  apply (proj2 (handle_spec pats prop z own) _ Er) in Ie. destruct (emits_owner _ _ _ _ _ Ie) as [Q|Q].
  - apply No. rewrite <- Q, Oe. apply in_flat_map. eauto.
  - rewrite Oe in Q. exact (ids_apart m1 y m2 z i N Iz Ki Q).
Qed.
Lemma handle_last prop : forall (y : sym) own evs, handle pats prop own y = Some evs -> NoDup (ids y) -> ~ In own (ids y) -> last_ok evs.
Proof.
  apply (sym_rect' (fun y => forall own evs, handle pats prop own y = Some evs -> NoDup (ids y) -> ~ In own (ids y) -> last_ok evs)).
  - intros p int ds own evs [= <-] _ _ l1 i p' o x l2 Q. destruct l1 as [|? [|]]; discriminate.
  - intros s b ds own evs [= <-] _ _ l1 i p' o x l2 Q. destruct b, l1 as [|? [|]]; discriminate.
  - intros i b own evs [= <-] _ _ l1 i' p' o x l2 Q. destruct l1 as [|? [|]]; discriminate.
  - intros u ms IH own evs E N No. rewrite Forall_forall in IH. cbn [handle ids] in *. destruct u.
    { injection E as <-. intros l1 i p o x l2 Q. destruct l1; discriminate. }
    apply seqo_some in E. destruct E as (cs & E & ->). apply (seq_last prop own ms cs N No); [|exact E].
    intros y evs I Ey. apply (IH y I own evs Ey); [now apply (flat_nodup_in ms)|intros J; apply No, in_flat_map; eauto].
  - intros ms IH own evs E N No. rewrite Forall_forall in IH. cbn [handle ids] in *.
    apply seqo_some in E. destruct E as (cs & E & ->). apply (seq_last prop own ms cs N No); [|exact E].
    intros y evs I Ey. apply (IH y I own evs Ey); [now apply (flat_nodup_in ms)|intros J; apply No, in_flat_map; eauto].
  - intros own evs [= <-] _ _ l1 i p' o x l2 Q. destruct l1; discriminate.
  - intros i path def u ms cs IH own evs E N No. rewrite Forall_forall in IH. cbn [handle ids] in *. destruct u.
    { injection E as <-. intros l1 i' p o x l2 Q. destruct l1; discriminate. }
    inversion N as [|? ? Ni Nm]; subst.
    destruct (isBlackBoxInstance pats path def) as [bb|]; [|discriminate].
    apply seqo_some in E. destruct E as (ch & E & ->). destruct ch as [|c1 [|c2 ch]]; try discriminate. injection E as E1 E2 E3. subst c1.
    assert (Conns : forall e, In e (concat ch) -> owner e = i /\ is_conn e).
    { intros e I. apply (map_some_in _ _ _ E3) in I. destruct I as (c & r & _ & Er & I).
      destruct c; cbn in Er; try discriminate; injection Er as <-; [destruct I as [<-|[]]; split; [reflexivity|exact Logic.I]|destruct I]. }
    assert (Bd : last_ok c2 /\ forall j p o x, In (VConn j p o x) c2 -> j <> i).
    { destruct bb.
      - injection E2 as <-. assert (No2 : forall j p o x, ~ In (VConn j p o x) (VBox i path :: box_ports i ms)).
        { intros j p o x [Q|I]; [discriminate|]. apply box_ports_in in I. destruct I as (? & ? & ? & _ & Q). discriminate. }
        split; [|intros j p o x I; destruct (No2 _ _ _ _ I)].
        intros l1 j p o x l2 Q. destruct (No2 j p o x). rewrite Q. apply in_app_iff. right. now left.
      - apply seqo_some in E2. destruct E2 as (cc & E2 & ->). split.
        + apply (seq_last prop i ms cc Nm Ni); [|exact E2]. intros y evs I Ey.
          apply (IH y I i evs Ey); [now apply (flat_nodup_in ms)|intros J; apply Ni, in_flat_map; eauto].
        + intros j p o x I ->. apply (map_some_in _ _ _ E2) in I. destruct I as (y & r & Iy & Er & I).
          apply (proj2 (handle_spec pats prop y i) _ Er) in I. apply Ni, in_flat_map. exists y. split; [exact Iy|].
          eapply conn_owner; eauto. }
    destruct Bd as (Bd & Ne).
    intros l1 j p o x l2 Q e I Oe. apply split_concat in Q. destruct Q as (d1 & a & b & d2 & Ec & _ & ->).
    destruct d1 as [|x1 [|x2 d1]]; cbn [app] in Ec.
    + exfalso. injection Ec as Ec _. destruct prop; [destruct a as [|? [|]]; discriminate|destruct a; discriminate].
    + injection Ec as _ Ec Ec2. subst c2 d2. apply in_app_iff in I. destruct I as [I|I]; [exact (Bd a j p o x b eq_refl e I Oe)|].
      exfalso. destruct (Conns e I) as (Q & _). apply (Ne j p o x); [apply in_app_iff; right; now left|congruence].
    + injection Ec as _ _ Ec. subst ch. apply Conns. rewrite concat_app. cbn. rewrite !in_app_iff. cbn. apply in_app_iff in I. tauto.
Qed.

(** Cuts of an instance are unique and hold its connections. *)
Lemma emits_cuts_owner prop : forall own (y : sym) e, emits pats prop own y e -> forall i c, e = VCuts i c -> In i (ids y).
Proof.
  intros own y e M. induction M; intros i' c' Q; try discriminate; cbn [ids].
  - apply in_flat_map. exists y. eauto.
  - apply in_flat_map. exists y. eauto.
  - injection Q as <- _. now left.
  - right. apply in_flat_map. exists y. eauto.
Qed.
Lemma conn_cuts : forall own (y : sym) e, emits pats true own y e -> forall i p o x, e = VConn i p o x ->
  exists c, emits pats true own y (VCuts i c) /\ In x c.
Proof.
  intros own y e M. induction M; intros i' p' o' x' Q; try discriminate.
  - destruct (IHM _ _ _ _ Q) as (c & E & I). exists c. split; [|exact I]. eapply em_gen; eauto.
  - destruct (IHM _ _ _ _ Q) as (c & E & I). exists c. split; [|exact I]. eapply em_scope; eauto.
  - destruct (IHM _ _ _ _ Q) as (c & E & I). exists c. split; [|exact I]. eapply em_body; eauto.
  - injection Q as <- <- <- <-. exists (port_conns cs). split; [now constructor|]. unfold port_conns. apply in_flat_map. exists (CnPort p o x). split; [exact H|now left].
Qed.
Lemma cuts_unique prop : forall own (y : sym) e, emits pats prop own y e -> forall i c, e = VCuts i c -> NoDup (ids y) -> ~ In own (ids y) ->
  forall c', emits pats prop own y (VCuts i c') -> c' = c.
Proof.
  intros own y e M. induction M; intros i' c Q N No c' M'; try discriminate; cbn [ids] in N, No.
  - inversion M'; subst. pose proof (emits_cuts_owner _ _ _ _ M _ _ eq_refl) as K1.
    match goal with H : emits _ _ own ?z (VCuts i' c'), H' : In ?z ms |- _ => rename H into Mz; rename H' into Iz end.
    pose proof (emits_cuts_owner _ _ _ _ Mz _ _ eq_refl) as K2. destruct (flat_nodup ms _ _ i' N H Iz K1 K2) as [->|[]].
    apply (IHM i' c eq_refl); [now apply (flat_nodup_in ms)|intros J; apply No, in_flat_map; eauto|exact Mz].
  - inversion M'; subst. pose proof (emits_cuts_owner _ _ _ _ M _ _ eq_refl) as K1.
    match goal with H : emits _ _ own ?z (VCuts i' c'), H' : In ?z ms |- _ => rename H into Mz; rename H' into Iz end.
    pose proof (emits_cuts_owner _ _ _ _ Mz _ _ eq_refl) as K2. destruct (flat_nodup ms _ _ i' N H Iz K1 K2) as [->|[]].
    apply (IHM i' c eq_refl); [now apply (flat_nodup_in ms)|intros J; apply No, in_flat_map; eauto|exact Mz].
  - injection Q as <- <-. inversion N as [|? ? Ni Nm]; subst. inversion M'; subst; [reflexivity|]. exfalso. apply Ni, in_flat_map.
    match goal with H : emits _ _ i ?z _ |- _ => exists z; split; [assumption|eapply emits_cuts_owner; eauto] end.
  - subst e. inversion N as [|? ? Ni Nm]; subst. pose proof (emits_cuts_owner _ _ _ _ M _ _ eq_refl) as K1. inversion M'; subst.
    + exfalso. apply Ni, in_flat_map. eauto.
    + match goal with H : emits _ _ i ?z (VCuts i' c'), H' : In ?z ms |- _ => rename H into Mz; rename H' into Iz end.
      pose proof (emits_cuts_owner _ _ _ _ Mz _ _ eq_refl) as K2. destruct (flat_nodup ms _ _ i' Nm H0 Iz K1 K2) as [->|[]].
      apply (IHM i' c eq_refl); [now apply (flat_nodup_in ms)|intros J; apply Ni, in_flat_map; eauto|exact Mz].
Qed.
End O.
