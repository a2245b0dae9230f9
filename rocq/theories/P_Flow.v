(** Proofs about whole designs: following values back through a cone, and the edges that
    the last phase makes. *)
From Verif Require Import Base M_Graph M_Range M_Netlist M_Annot M_Interval M_Heap M_Drivers M_Pending M_DFA M_Builder M_Slice M_Port M_Flow
  S_Graph S_Reach S_Netlist S_Annot S_Interval S_Drivers S_Pending S_DFA S_Builder
  P_Graph P_Path P_Annot P_Interval P_Heap P_Drivers P_DriversX P_Pending P_Pending2 P_Builder.

(** * Following values back *)
Section Back.
Variable R : nat -> nat -> Prop.
Variable cone : list nat.
Hypothesis closed : forall m n, In m cone -> R m n -> In n cone.
Hypothesis acyclic : forall m, In m cone -> ~ Reach1 R m m.
Variable Prov : nat -> nat -> nat -> Prop.
Variable Rd : nat -> nat -> nat -> Prop.
Variable same : nat -> nat -> Prop.
(** What a node provides is determined by what it reads. *)
Hypothesis prov : forall n s i, In n cone -> Prov n s i ->
  same s i \/ exists A : nat -> nat -> Prop, ((forall t j, A t j -> same t j) -> same s i) /\ forall t j, A t j -> Rd n t j.
(** What is read is provided by a node one step back. *)
Hypothesis read : forall n t j, In n cone -> Rd n t j -> same t j \/ exists n', Prov n' t j /\ R n n'.

Lemma back_ind : forall k seen n, NoDup seen -> incl seen cone -> length cone <= length seen + k ->
  (forall m, In m seen -> Reach1 R m n) -> In n cone -> forall s i, Prov n s i -> same s i.
Proof.
  induction k as [|k IH]; intros seen n ND Inc Len An I s i P.
  - exfalso. assert (N : ~ In n seen) by (intros J; apply (acyclic n I), An, J).
    assert (L : length (n :: seen) <= length cone).
    { apply NoDup_incl_length; [now constructor|]. intros x [<-|J]; auto. }
    cbn in L. lia.
  - destruct (prov n s i I P) as [E|(A & D & Rs)]; [exact E|]. apply D. intros t j Tj.
    destruct (read n t j I (Rs t j Tj)) as [E|(n' & P' & St)]; [exact E|].
    apply (IH (n :: seen) n'); auto.
    + constructor; [|exact ND]. intros J. apply (acyclic n I), An, J.
    + intros x [<-|J]; auto.
    + cbn. lia.
    + intros m [<-|J]; [exists n'; split; [exact St|constructor]|].
      destruct (An m J) as (c & C1 & C2). exists c. split; [exact C1|]. eapply reach_step; eauto.
    + eauto.
Qed.
Lemma back_prov n s i : In n cone -> Prov n s i -> same s i.
Proof.
  intros I P. apply (back_ind (length cone) [] n); auto; [constructor|intros x []|intros m []].
Qed.
Lemma back_read n t j : In n cone -> Rd n t j -> same t j.
Proof.
  intros I H. destruct (read n t j I H) as [E|(n' & P & St)]; [exact E|]. apply (back_prov n'); eauto.
Qed.
End Back.

(** * Enabled edges *)
Lemma setVariable_dis x sy r y b : setVariable x sy r = Some (y, b) -> adis y = adis x.
Proof.
  unfold setVariable. destruct (match asym x, sy with Some p, Some q => str_eqb p q | _, _ => false end).
  - destruct (isContiguousWith (abounds x) r) as [[]|]; [|intros [= <- _]; reflexivity|discriminate].
    destruct (unionWith (abounds x) r); [|discriminate]. intros [= <- _]. reflexivity.
  - intros [= <- _]. reflexivity.
Qed.
Definition enabled (l : list eattr) : Prop := forall x, In x l -> adis x = false.
Lemma astep_enabled nl l d l' : enabled l -> astep nl l d = Some l' -> enabled l'.
Proof.
  intros E. destruct d as [a b|a b sy r k]; cbn [astep].
  - intros [= <-]. unfold nz. destruct l as [|x l]; [|exact E]. intros y [<-|[]]. reflexivity.
  - unfold ann_dep. destruct l as [|x l].
    + destruct (setVariable default_attr sy (edgeBounds nl a r)) as [[y []]|] eqn:S; try discriminate.
      intros [= <-] z [<-|[]]. cbn. now rewrite (setVariable_dis _ _ _ _ _ S).
    + assert (Ex : adis x = false) by (apply E; now left).
      destruct (setVariable x sy (edgeBounds nl a r)) as [[y []]|] eqn:S; try discriminate.
      * intros [= <-] z [<-|I]; [cbn; now rewrite (setVariable_dis _ _ _ _ _ S)|apply E; now right].
      * destruct (setVariable default_attr sy (edgeBounds nl a r)) as [[w b']|] eqn:S2; [|discriminate].
        intros [= <-] z [<-|I]; [exact Ex|]. apply in_app_or in I. destruct I as [I|[<-|[]]]; [apply E; now right|].
        cbn. now rewrite (setVariable_dis _ _ _ _ _ S2).
Qed.
Lemma arun_enabled nl : forall ds l l', enabled l -> arun nl l ds = Some l' -> enabled l'.
Proof.
  induction ds as [|d ds IH]; intros l l' E; cbn [arun]; [intros [= <-]; exact E|].
  destruct (astep nl l d) as [m|] eqn:S; [|discriminate]. apply IH. eapply astep_enabled; eauto.
Qed.

(** Every dependency asked for is an enabled edge. *)
Lemma drun_conn nl ds nl' : reachable outEdgeIndexThreshold (ng nl) -> (forall a b, pair_ann nl a b = []) -> drun nl ds = Some nl' ->
  reachable outEdgeIndexThreshold (ng nl') /\ ninf nl' = ninf nl /\ (forall n, hasNode (ng nl') n = hasNode (ng nl) n) /\
  forall d, In d ds -> Conn nl' (dsrc d) (dtgt d).
Proof.
  intros RG Em D. destruct (drun_ann nl _ nl nl' RG eq_refl D) as (R1 & R2 & R3 & R4 & R5).
  split; [exact R1|]. split; [exact R2|]. split; [exact R3|]. intros d I.
  pose proof (R5 (dsrc d) (dtgt d)) as A. rewrite Em in A.
  assert (En : enabled (pair_ann nl' (dsrc d) (dtgt d))) by (eapply arun_enabled; [|exact A]; intros x []).
  assert (Ne : pair_ann nl' (dsrc d) (dtgt d) <> []).
  { apply (drun_edges nl ds nl' (dsrc d) (dtgt d) RG D). right. exists d. auto. }
  unfold pair_ann in *. destruct (filter (to (dtgt d)) (outs (nst (ng nl') (dsrc d)))) as [|e r] eqn:F; [now destruct Ne|].
  assert (Ie : In e (filter (to (dtgt d)) (outs (nst (ng nl') (dsrc d))))) by (rewrite F; now left).
  apply filter_In in Ie. destruct Ie as [Ie T]. exists e. split; [exact Ie|]. split.
  - unfold to in T. now apply Nat.eqb_eq in T.
  - apply En. cbn. now left.
Qed.

(** * Emission *)
(** The bits that a dependency asks for. *)
Definition has_bit (e : dep) (i : Z) : Prop := match e with DDep _ _ _ r _ => bit r i | DPlain _ _ => False end.
Lemma emit_drivers vt dm p n i m ds : pnode p = Some n -> vt (psym p) = None ->
  (forall d, dm (psym p) = Some d -> dok d /\ allvalid d) ->
  emitEdgesFor vt dm p = DOk ds -> bit (pbounds p) i -> drives_global dm (psym p) i m ->
  exists e, In e ds /\ dsrc e = m /\ dtgt e = n /\ has_bit e i.
Proof.
  intros N V G E B (d & Dm & x & l & Ix & Bi & Gl & Im). destruct (G d Dm) as [K Va].
  unfold emitEdgesFor in E. rewrite N in E. unfold vt_lookup in E. rewrite V, Dm in E.
  unfold forEachDriverInterval, dm_find in E.
  destruct (each_interval_spec d Va (ivfind (fst (toPair (pbounds p))) (snd (toPair (pbounds p))) (ivs d))) as (out & Eo & S).
  { intros y I. now apply in_ivfind in I. }
  rewrite Eo in E. cbn [dbind] in E. injection E as <-.
  assert (Io : In (Range (ilo x) (ihi x), l) out).
  { apply S. exists x. split; [|auto]. apply in_ivfind. split; [exact Ix|]. unfold toPair. cbn [fst snd].
    rewrite bit_lu in B. unfold lower, upper in *. lia. }
  pose proof (inter_bits (Range (ilo x) (ihi x)) (pbounds p)) as Ib.
  assert (Bx : bit_in (Range (ilo x) (ihi x)) i) by (unfold bit_in, lower, upper; cbn; lia).
  assert (Bp : bit_in (pbounds p) i) by exact B.
  destruct (intersection (Range (ilo x) (ihi x)) (pbounds p)) as [eb|] eqn:X; [|destruct (Ib i); auto].
  exists (DDep m n (Some (pref p)) eb (pkind p)). split; [|split; [reflexivity|split; [reflexivity|]]]; [|cbn; apply bit_lu; apply (Ib i); auto]. apply in_flat_map.
  exists (Range (ilo x) (ihi x), l). split; [exact Io|]. cbn [fst snd]. rewrite X. apply in_map_iff. eauto.
Qed.
