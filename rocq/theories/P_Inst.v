(** Proofs about the collecting traversal. *)
From Verif Require Import Base M_Graph M_Range M_Netlist M_Text S_Text P_Text M_Annot M_Interval M_Heap M_Drivers M_Pending M_DFA M_Builder M_Slice M_Port M_Inst S_Inst.

Lemma match_glob text pat : exists b, wildcardMatch text pat = Some b /\ (b = true <-> glob pat text).
Proof.
  destruct (c23 text pat) as (b & ts & E & L & U & B). exists b. split; [exact E|]. rewrite B. unfold glob. split; [eauto|].
  intros (ts' & L' & M). rewrite (U ts' L') in M. exact M.
Qed.
Lemma any_match_spec text : forall pats, exists b, any_match pats text = Some b /\ (b = true <-> exists p, In p pats /\ glob p text).
Proof.
  induction pats as [|p pats (b & E & B)]; cbn [any_match].
  - exists false. split; [reflexivity|]. split; [discriminate|intros (p & [] & _)].
  - destruct (match_glob text p) as ([|] & -> & M).
    + exists true. split; [reflexivity|]. split; [|reflexivity]. intros _. exists p. split; [now left|now apply M].
    + exists b. split; [exact E|]. rewrite B. split.
      * intros (q & I & G). exists q. split; [now right|exact G].
      * intros (q & [<-|I] & G); [apply M in G; discriminate|eauto].
Qed.
Lemma blackbox_spec pats path def : exists b, isBlackBoxInstance pats path def = Some b /\ (b = true <-> Boxed pats path def).
Proof.
  unfold isBlackBoxInstance, Boxed. destruct pats as [|p0 ps].
  - exists false. split; [reflexivity|]. split; [discriminate|intros (p & [] & _)].
  - set (l := p0 :: ps). destruct (any_match_spec def l) as ([|] & -> & D).
    + exists true. split; [reflexivity|]. split; [|reflexivity]. intros _. destruct (proj1 D eq_refl) as (p & I & G). eauto.
    + destruct (any_match_spec path l) as (b & -> & P). exists b. split; [reflexivity|]. rewrite P. split.
      * intros (p & I & G). eauto.
      * intros (p & I & [G|G]); [|eauto]. exfalso. assert (false = true) by (apply D; eauto). discriminate.
Qed.

Section P.
Context {V : Type}.
Notation sym := (@sym V).
Notation iev := (@iev V).

Fixpoint sym_rect' (P : sym -> Prop)
  (fP : forall p int ds, P (YPort p int ds)) (fV : forall s b ds, P (YVar s b ds)) (fB : forall i b, P (YBlock i b))
  (fG : forall u ms, Forall P ms -> P (YGen u ms)) (fS : forall ms, Forall P ms -> P (YScope ms)) (fO : P YOther)
  (fI : forall i path def u ms cs, Forall P ms -> P (YInst i path def u ms cs)) (y : sym) : P y :=
  let rec := sym_rect' P fP fV fB fG fS fO fI in
  let all := fix all (l : list sym) : Forall P l :=
    match l with [] => Forall_nil P | x :: r => Forall_cons x (rec x) (all r) end in
  match y with
  | YPort p int ds => fP p int ds
  | YVar s b ds => fV s b ds
  | YBlock i b => fB i b
  | YGen u ms => fG u ms (all ms)
  | YScope ms => fS ms (all ms)
  | YOther => fO
  | YInst i path def u ms cs => fI i path def u ms cs (all ms)
  end.

Variable pats : list str.
Variable prop : bool.
Notation handle := (handle pats prop).

(** What a symbol gives rise to. *)
Inductive emits : nat -> sym -> iev -> Prop :=
| em_port own p int ds : emits own (YPort p int ds) (VPort own p int ds)
| em_var own s ds : emits own (YVar s true ds) (VVar own s ds)
| em_block own id b : emits own (YBlock id b) (VDefer own id b)
| em_gen own ms y e : In y ms -> emits own y e -> emits own (YGen false ms) e
| em_scope own ms y e : In y ms -> emits own y e -> emits own (YScope ms) e
| em_cuts own i path def ms cs : prop = true -> emits own (YInst i path def false ms cs) (VCuts i (port_conns cs))
| em_box own i path def ms cs : Boxed pats path def -> emits own (YInst i path def false ms cs) (VBox i path)
| em_boxport own i path def ms cs p int ds : Boxed pats path def -> In (YPort p int ds) ms ->
    emits own (YInst i path def false ms cs) (VPort i p int ds)
| em_body own i path def ms cs y e : ~ Boxed pats path def -> In y ms -> emits i y e ->
    emits own (YInst i path def false ms cs) e
| em_conn own i path def ms cs p o x : In (CnPort p o x) cs -> emits own (YInst i path def false ms cs) (VConn i p o x).
(** Where a connection of another kind is met. *)
Inductive fails : sym -> Prop :=
| fl_gen ms y : In y ms -> fails y -> fails (YGen false ms)
| fl_scope ms y : In y ms -> fails y -> fails (YScope ms)
| fl_body i path def ms cs y : ~ Boxed pats path def -> In y ms -> fails y -> fails (YInst i path def false ms cs)
| fl_conn i path def ms cs : In CnOther cs -> fails (YInst i path def false ms cs).

Lemma seqo_some {A} : forall (l : list (option (list A))) r, seqo l = Some r ->
  exists cs, l = map Some cs /\ r = concat cs.
Proof.
  induction l as [|x l IH]; intros r E; cbn in E.
  - injection E as <-. exists []. auto.
  - destruct x as [a|]; [|discriminate]. destruct (seqo l) as [b|]; [|discriminate]. injection E as <-.
    destruct (IH b eq_refl) as (cs & -> & ->). exists (a :: cs). auto.
Qed.
Lemma seqo_concat {A} : forall cs : list (list A), seqo (map Some cs) = Some (concat cs).
Proof. induction cs as [|a cs IH]; cbn; [reflexivity|]. now rewrite IH. Qed.
Lemma seqo_none {A} : forall l : list (option (list A)), seqo l = None <-> In None l.
Proof.
  induction l as [|x l IH]; cbn; [split; [discriminate|intros []]|]. destruct x as [a|].
  - destruct (seqo l) as [b|]; split; intros H; try discriminate.
    + destruct H as [H|H]; [discriminate|]. apply IH in H. discriminate.
    + right. now apply IH.
    + reflexivity.
  - split; auto.
Qed.
Lemma map_some_in {A B} (f : A -> option (list B)) l cs : map f l = map Some cs ->
  (forall e, In e (concat cs) <-> exists x r, In x l /\ f x = Some r /\ In e r).
Proof.
  revert cs. induction l as [|x l IH]; intros [|c cs] E e; try discriminate; cbn.
  - split; [intros []|intros (x & r & [] & _)].
  - injection E as E1 E2. rewrite in_app_iff, (IH cs E2). split.
    + intros [I|(y & r & I & H)]; [exists x, c; auto|exists y, r; auto].
    + intros (y & r & [<-|I] & E & H); [left; congruence|right; eauto].
Qed.

Lemma box_ports_in i ms e : In e (box_ports i ms) <-> exists p int ds, In (YPort p int ds) ms /\ e = @VPort V i p int ds.
Proof.
  unfold box_ports. rewrite in_flat_map. split.
  - intros (m & I & J). destruct m; try (now destruct J). destruct J as [<-|[]]. eauto.
  - intros (p & int & ds & I & ->). eexists. split; [exact I|now left].
Qed.
Lemma connect_none i cs : In None (map (@connect V i) cs) <-> In CnOther cs.
Proof.
  rewrite in_map_iff. split; [intros (c & E & I); destruct c; try discriminate; exact I|intros I; exists CnOther; auto].
Qed.

Lemma handle_spec : forall y own,
  (handle own y = None <-> fails y) /\ forall evs, handle own y = Some evs -> forall e, In e evs <-> emits own y e.
Proof.
  apply (sym_rect' (fun y => forall own, (handle own y = None <-> fails y) /\
    forall evs, handle own y = Some evs -> forall e, In e evs <-> emits own y e)).
  - intros p int ds own. split; [split; [discriminate|intros F; inversion F]|]. intros evs [= <-] e. split.
    + intros [<-|[]]. constructor.
    + intros M. inversion M; subst. now left.
  - intros s b ds own. split; [split; [discriminate|intros F; inversion F]|]. intros evs [= <-] e. split.
    + destruct b; [intros [<-|[]]; constructor|intros []].
    + intros M. inversion M; subst. now left.
  - intros i b own. split; [split; [discriminate|intros F; inversion F]|]. intros evs [= <-] e. split.
    + intros [<-|[]]. constructor.
    + intros M. inversion M; subst. now left.
  - intros u ms IH own. rewrite Forall_forall in IH. cbn [M_Inst.handle]. destruct u.
    + split; [split; [discriminate|intros F; inversion F]|]. intros evs [= <-] e. split; [intros []|intros M; inversion M].
    + split.
      * rewrite seqo_none, in_map_iff. split.
        -- intros (y & E & I). apply (IH y I own) in E. econstructor; eauto.
        -- intros F. inversion F; subst. exists y. split; [now apply (IH y ltac:(assumption) own)|assumption].
      * intros evs E e. apply seqo_some in E. destruct E as (cs & E & ->). rewrite (map_some_in _ _ _ E). split.
        -- intros (y & r & I & Er & Ie). apply (proj2 (IH y I own) r Er) in Ie. econstructor; eauto.
        -- intros M. inversion M; subst. destruct (handle own y) as [r|] eqn:Er.
           ++ exists y, r. split; [assumption|]. split; [exact Er|]. now apply (proj2 (IH y ltac:(assumption) own) r Er).
           ++ exfalso. assert (In None (map (handle own) ms)) by (apply in_map_iff; eauto).
              rewrite E in H. apply in_map_iff in H. destruct H as (z & Q & _). discriminate.
  - intros ms IH own. rewrite Forall_forall in IH. cbn [M_Inst.handle]. split.
    + rewrite seqo_none, in_map_iff. split.
      * intros (y & E & I). apply (IH y I own) in E. econstructor; eauto.
      * intros F. inversion F; subst. exists y. split; [now apply (IH y ltac:(assumption) own)|assumption].
    + intros evs E e. apply seqo_some in E. destruct E as (cs & E & ->). rewrite (map_some_in _ _ _ E). split.
      * intros (y & r & I & Er & Ie). apply (proj2 (IH y I own) r Er) in Ie. econstructor; eauto.
      * intros M. inversion M; subst. destruct (handle own y) as [r|] eqn:Er.
        -- exists y, r. split; [assumption|]. split; [exact Er|]. now apply (proj2 (IH y ltac:(assumption) own) r Er).
        -- exfalso. assert (In None (map (handle own) ms)) by (apply in_map_iff; eauto).
           rewrite E in H. apply in_map_iff in H. destruct H as (z & Q & _). discriminate.
  - intros own. split; [split; [discriminate|intros F; inversion F]|]. intros evs [= <-] e. split; [intros []|intros M; inversion M].
  - intros i path def u ms cs IH own. rewrite Forall_forall in IH. cbn [M_Inst.handle]. destruct u.
    { split; [split; [discriminate|intros F; inversion F]|]. intros evs [= <-] e. split; [intros []|intros M; inversion M]. }
    destruct (blackbox_spec pats path def) as (bb & -> & B). split.
    + rewrite seqo_none. cbn [In]. split.
      * intros [Q|[Q|Q]]; [discriminate| |apply connect_none in Q; now constructor].
        destruct bb; [discriminate|]. apply seqo_none, in_map_iff in Q. destruct Q as (y & E & I). apply (IH y I i) in E.
        eapply fl_body; eauto. intros Bx. apply B in Bx. discriminate.
      * intros F. inversion F; subst.
        -- right. left. destruct bb; [match goal with Q : ~ Boxed _ _ _ |- _ => destruct Q; now apply B end|]. apply seqo_none, in_map_iff. exists y. split; [now apply (IH y ltac:(assumption) i)|assumption].
        -- right. right. now apply connect_none.
    + intros evs E e. apply seqo_some in E. destruct E as (ch & E & ->). destruct ch as [|c1 [|c2 ch]]; try discriminate.
      injection E as E1 E2 E3. cbn [concat]. rewrite !in_app_iff, (map_some_in _ _ _ E3). subst c1. split.
      * intros [I|[I|(c & r & Ic & Er & I)]].
        -- destruct prop eqn:Ep; [|destruct I]. destruct I as [<-|[]]. now constructor.
        -- destruct bb.
           ++ injection E2 as <-. assert (Bx : Boxed pats path def) by (now apply B). destruct I as [<-|I]; [now constructor|].
              apply box_ports_in in I. destruct I as (p & int & ds & I & ->). now constructor.
           ++ assert (Bx : ~ Boxed pats path def) by (intros Bx; apply B in Bx; discriminate).
              apply seqo_some in E2. destruct E2 as (c' & E2 & ->). apply (map_some_in _ _ _ E2) in I. destruct I as (y & r & Iy & Er & I).
              apply (proj2 (IH y Iy i) r Er) in I. eapply em_body; eauto.
        -- destruct c; cbn in Er; try discriminate; injection Er as <-; [|destruct I]. destruct I as [<-|[]]. now constructor.
      * intros M. inversion M; subst.
        -- left. match goal with Q : prop = true |- _ => rewrite Q end. now left.
        -- right. left. destruct bb; [|match goal with Q : Boxed _ _ _ |- _ => apply B in Q; discriminate end]. injection E2 as <-. now left.
        -- right. left. destruct bb; [|match goal with Q : Boxed _ _ _ |- _ => apply B in Q; discriminate end]. injection E2 as <-. right. apply box_ports_in. eauto 6.
        -- right. left. destruct bb; [match goal with Q : ~ Boxed _ _ _ |- _ => destruct Q; now apply B end|]. apply seqo_some in E2. destruct E2 as (c' & E2 & ->).
           apply (map_some_in _ _ _ E2). destruct (handle i y) as [r|] eqn:Er.
           ++ exists y, r. split; [assumption|]. split; [exact Er|]. now apply (proj2 (IH y ltac:(assumption) i) r Er).
           ++ exfalso. assert (In None (map (handle i) ms)) by (apply in_map_iff; eauto).
              rewrite E2 in H. apply in_map_iff in H. destruct H as (z & Q & _). discriminate.
        -- right. right. exists (CnPort p o x). eexists. split; [eassumption|]. split; [reflexivity|now left].
Qed.

Lemma traverse_spec own tops :
  (traverse pats prop own tops = None <-> exists y, In y tops /\ fails y) /\
  forall evs, traverse pats prop own tops = Some evs -> forall e, In e evs <-> exists y, In y tops /\ emits own y e.
Proof.
  unfold traverse. split.
  - rewrite seqo_none, in_map_iff. split; intros (y & A & B).
    + exists y. split; [exact B|]. now apply (handle_spec y own).
    + exists y. split; [|exact A]. now apply (handle_spec y own).
  - intros evs E e. apply seqo_some in E. destruct E as (cs & E & ->). rewrite (map_some_in _ _ _ E). split.
    + intros (y & r & I & Er & Ie). exists y. split; [exact I|]. now apply (proj2 (handle_spec y own) r Er).
    + intros (y & I & M). destruct (handle own y) as [r|] eqn:Er.
      * exists y, r. split; [exact I|]. split; [exact Er|]. now apply (proj2 (handle_spec y own) r Er).
      * exfalso. assert (In None (map (handle own) tops)) by (apply in_map_iff; eauto).
        rewrite E in H. apply in_map_iff in H. destruct H as (z & Q & _). discriminate.
Qed.

(** * In terms of visible bodies *)
Notation body := (@body V pats).
Notation instance := (@instance V pats).
(** What body [ms] of [i] holds directly, or at the boundary of one of its instances. *)
Definition says (own : nat) (tops : list sym) (e : iev) : Prop :=
  match e with
  | VPort i p int ds => (exists ms, body own tops i ms /\ member_of (YPort p int ds) ms) \/
      exists path def ms cs, instance own tops i path def ms cs /\ Boxed pats path def /\ In (YPort p int ds) ms
  | VVar i s ds => exists ms, body own tops i ms /\ member_of (YVar s true ds) ms
  | VDefer i id b => exists ms, body own tops i ms /\ member_of (YBlock id b) ms
  | VCuts i xs => prop = true /\ exists path def ms cs, instance own tops i path def ms cs /\ xs = port_conns cs
  | VBox i path => exists def ms cs, instance own tops i path def ms cs /\ Boxed pats path def
  | VConn i p o x => exists path def ms cs, instance own tops i path def ms cs /\ In (CnPort p o x) cs
  end.

Lemma body_mono own (ms tops : list sym) : (forall z, member_of z ms -> member_of z tops) -> forall i ms',
  body own ms i ms' -> (i = own /\ ms' = ms) \/ body own tops i ms'.
Proof.
  intros Sub i ms' B. induction B as [|i ms1 j path def ms2 cs B IH M N]; [auto|].
  right. destruct IH as [[-> ->]|IH]; [eapply body_sub; [apply body_top|apply Sub; exact M|exact N]|eapply body_sub; eauto].
Qed.
Lemma says_mono own (ms tops : list sym) e : (forall z, member_of z ms -> member_of z tops) -> says own ms e -> says own tops e.
Proof.
  intros Sub.
  assert (Bd : forall i ms' z, body own ms i ms' -> member_of z ms' -> exists ms'', body own tops i ms'' /\ member_of z ms'').
  { intros i ms' z B M. destruct (body_mono own ms tops Sub i ms' B) as [[-> ->]|B']; [exists tops; split; [constructor|auto]|eauto]. }
  assert (In_ : forall i path def ms' cs, instance own ms i path def ms' cs -> instance own tops i path def ms' cs).
  { intros i path def ms' cs (k & m & B & M). destruct (Bd _ _ _ B M) as (m' & B' & M'). exists k, m'. auto. }
  destruct e as [i cs|i path|i p int ds|i s ds|i id b|i p o x]; cbn.
  - intros (E & path & def & ms' & cs' & I & Q). split; [exact E|]. eauto 8.
  - intros (def & ms' & cs & I & B). eauto 8.
  - intros [(ms' & B & M)|(path & def & ms' & cs & I & B & J)]; [left; eapply Bd; eauto|right; eauto 9].
  - intros (ms' & B & M). eapply Bd; eauto.
  - intros (ms' & B & M). eapply Bd; eauto.
  - intros (path & def & ms' & cs & I & J). eauto 9.
Qed.
Lemma body_into own tops path def i ms cs j ms' : member_of (YInst i path def false ms cs) tops -> ~ Boxed pats path def ->
  body i ms j ms' -> body own tops j ms'.
Proof.
  intros M N B. induction B as [|k ms1 j path' def' ms2 cs' B IH M' N'].
  - eapply body_sub; [apply body_top|exact M|exact N].
  - eapply body_sub; eauto.
Qed.
Lemma says_into own tops path def i ms cs e : member_of (YInst i path def false ms cs) tops -> ~ Boxed pats path def ->
  says i ms e -> says own tops e.
Proof.
  intros Mi N.
  assert (Bd : forall j ms', body i ms j ms' -> body own tops j ms') by (intros; eapply body_into; eauto).
  assert (In_ : forall j p d ms' cs', instance i ms j p d ms' cs' -> instance own tops j p d ms' cs').
  { intros j p d ms' cs' (k & m & B & M). exists k, m. auto. }
  destruct e as [j xs|j pa|j p int ds|j s ds|j id b|j p o x]; cbn.
  - intros (E & pa & d & ms' & cs' & I & Q). split; [exact E|]. eauto 8.
  - intros (d & ms' & cs' & I & B). eauto 8.
  - intros [(ms' & B & M)|(pa & d & ms' & cs' & I & B & J)]; [left; eauto|right; eauto 9].
  - intros (ms' & B & M). eauto.
  - intros (ms' & B & M). eauto.
  - intros (pa & d & ms' & cs' & I & J). eauto 9.
Qed.

Lemma emits_says : forall own y e, emits own y e -> forall tops, member_of y tops -> says own tops e.
Proof.
  intros own y e M. induction M; intros tops Mo; cbn.
  - left. exists tops. split; [constructor|exact Mo].
  - exists tops. split; [constructor|exact Mo].
  - exists tops. split; [constructor|exact Mo].
  - assert (Sub : forall z, member_of z ms -> member_of z tops).
    { clear - Mo. intros z Mz. induction Mo as [l I|l l' I Mo IH|l l' I Mo IH];
        [eapply mo_gen; eauto|eapply mo_gen; eauto|eapply mo_scope; eauto]. }
    apply (says_mono own ms tops e Sub). apply IHM. now apply mo_here.
  - assert (Sub : forall z, member_of z ms -> member_of z tops).
    { clear - Mo. intros z Mz. induction Mo as [l I|l l' I Mo IH|l l' I Mo IH];
        [eapply mo_scope; eauto|eapply mo_gen; eauto|eapply mo_scope; eauto]. }
    apply (says_mono own ms tops e Sub). apply IHM. now apply mo_here.
  - split; [assumption|]. exists path, def, ms, cs. split; [|reflexivity]. exists own, tops. split; [constructor|exact Mo].
  - exists def, ms, cs. split; [|assumption]. exists own, tops. split; [constructor|exact Mo].
  - right. exists path, def, ms, cs. split; [|auto]. exists own, tops. split; [constructor|exact Mo].
  - apply (says_into own tops path def i ms cs e Mo H). apply IHM. now apply mo_here.
  - exists path, def, ms, cs. split; [|assumption]. exists own, tops. split; [constructor|exact Mo].
Qed.

(** The other way: from a body down. *)
Lemma member_emits own y tops e : member_of y tops -> emits own y e -> exists z, In z tops /\ emits own z e.
Proof.
  intros M E. induction M as [l I|l l' I M IH|l l' I M IH]; [eauto| |]; destruct IH as (z & Iz & Ez).
  - exists (YGen false l'). split; [exact I|]. econstructor; eauto.
  - exists (YScope l'). split; [exact I|]. econstructor; eauto.
Qed.
Lemma body_emits own tops i ms y e : body own tops i ms -> member_of y ms -> emits i y e -> exists z, In z tops /\ emits own z e.
Proof.
  intros B. revert y. induction B as [|i ms1 j path def ms2 cs B IH M N]; intros y My E.
  - eapply member_emits; eauto.
  - destruct (member_emits j y ms2 e My E) as (z & Iz & Ez). apply (IH (YInst j path def false ms2 cs) M). eapply em_body; eauto.
Qed.
Lemma says_emits own tops e : says own tops e -> exists z, In z tops /\ emits own z e.
Proof.
  destruct e as [i xs|i path|i p int ds|i s ds|i id b|i p o x]; cbn.
  - intros (E & path & def & ms & cs & (k & m & B & M) & ->). eapply body_emits; eauto. now constructor.
  - intros (def & ms & cs & (k & m & B & M) & Bx). eapply body_emits; eauto. now constructor.
  - intros [(ms & B & M)|(path & def & ms & cs & (k & m & B & M) & Bx & I)]; eapply body_emits; eauto; now constructor.
  - intros (ms & B & M). eapply body_emits; eauto. constructor.
  - intros (ms & B & M). eapply body_emits; eauto. constructor.
  - intros (path & def & ms & cs & (k & m & B & M) & I). eapply body_emits; eauto. now constructor.
Qed.
Lemma traverse_says own tops evs : traverse pats prop own tops = Some evs -> forall e, In e evs <-> says own tops e.
Proof.
  intros E e. rewrite (proj2 (traverse_spec own tops) evs E). split; [|apply says_emits].
  intros (y & I & M). apply (emits_says own y e M). now apply mo_here.
Qed.
Lemma fails_bad own : forall y, fails y -> forall tops, member_of y tops ->
  exists i path def ms cs, instance own tops i path def ms cs /\ In CnOther cs.
Proof.
  intros y F. revert own. induction F; intros own tops Mo.
  - assert (Sub : member_of y tops).
    { clear - Mo H. induction Mo as [l I|l l' I Mo IH|l l' I Mo IH];
        [eapply mo_gen; [exact I|now apply mo_here]|eapply mo_gen; eauto|eapply mo_scope; eauto]. }
    exact (IHF own tops Sub).
  - assert (Sub : member_of y tops).
    { clear - Mo H. induction Mo as [l I|l l' I Mo IH|l l' I Mo IH];
        [eapply mo_scope; [exact I|now apply mo_here]|eapply mo_gen; eauto|eapply mo_scope; eauto]. }
    exact (IHF own tops Sub).
  - destruct (IHF i ms (mo_here _ _ H0)) as (j & p & d & ms' & cs' & (k & m & B & M) & I).
    exists j, p, d, ms', cs'. split; [|exact I]. exists k, m. split; [eapply body_into; eauto|exact M].
  - exists i, path, def, ms, cs. split; [|exact H]. exists own, tops. split; [constructor|exact Mo].
Qed.
Lemma member_fails y tops : member_of y tops -> fails y -> exists z, In z tops /\ fails z.
Proof.
  intros M E. induction M as [l I|l l' I M IH|l l' I M IH]; [eauto| |]; destruct IH as (z & Iz & Ez).
  - exists (YGen false l'). split; [exact I|]. econstructor; eauto.
  - exists (YScope l'). split; [exact I|]. econstructor; eauto.
Qed.
Lemma body_fails own tops i ms y : body own tops i ms -> member_of y ms -> fails y -> exists z, In z tops /\ fails z.
Proof.
  intros B. revert y. induction B as [|i ms1 j path def ms2 cs B IH M N]; intros y My E.
  - eapply member_fails; eauto.
  - destruct (member_fails y ms2 My E) as (z & Iz & Ez). apply (IH (YInst j path def false ms2 cs) M). eapply fl_body; eauto.
Qed.
Lemma traverse_none own tops : traverse pats prop own tops = None <->
  exists i path def ms cs, instance own tops i path def ms cs /\ In CnOther cs.
Proof.
  rewrite (proj1 (traverse_spec own tops)). split.
  - intros (y & I & F). apply (fails_bad own y F). now apply mo_here.
  - intros (i & path & def & ms & cs & (k & m & B & M) & I). eapply body_fails; eauto. now constructor.
Qed.

(** * Below a black box *)
Lemma emits_owner : forall own y e, emits own y e -> owner e = own \/ In (owner e) (ids y).
Proof.
  intros own y e M. induction M; cbn [ids owner]; auto.
  - destruct IHM as [->|I]; [auto|]. right. apply in_flat_map. eauto.
  - destruct IHM as [->|I]; [auto|]. right. apply in_flat_map. eauto.
  - right. now left.
  - right. now left.
  - right. now left.
  - right. destruct IHM as [->|I]; [now left|]. right. apply in_flat_map. eauto.
  - right. now left.
Qed.

Lemma flat_nodup (ms : list sym) y z k : NoDup (flat_map ids ms) -> In y ms -> In z ms -> In k (ids y) -> In k (ids z) -> y = z \/ False.
Proof.
  induction ms as [|m ms IH]; intros N Iy Iz Ky Kz; [destruct Iy|]. cbn in N.
  assert (D : forall x, In x (ids m) -> ~ In x (flat_map ids ms)).
  { intros x Ix Ix'. clear - N Ix Ix'. induction (ids m) as [|a l IHl]; [destruct Ix|]. cbn in N. inversion N; subst.
    destruct Ix as [<-|Ix]; [apply H1, in_app_iff; auto|auto]. }
  assert (N2 : NoDup (flat_map ids ms)) by (clear - N; induction (ids m); [exact N|inversion N; auto]).
  destruct Iy as [<-|Iy], Iz as [<-|Iz]; auto.
  - destruct (D k Ky). apply in_flat_map. eauto.
  - destruct (D k Kz). apply in_flat_map. eauto.
Qed.
Lemma flat_nodup_in (ms : list sym) y : NoDup (flat_map ids ms) -> In y ms -> NoDup (ids y).
Proof.
  induction ms as [|m ms IH]; intros N I; [destruct I|]. cbn in N. destruct I as [<-|I].
  - clear - N. induction (ids m) as [|a l IHl]; [constructor|]. cbn in N. inversion N; subst. constructor; auto.
    intros Q. apply H1, in_app_iff. auto.
  - apply IH; auto. clear - N. induction (ids m); [exact N|inversion N; auto].
Qed.

Lemma occurs_ids (x y : sym) k : occurs x y -> In k (ids x) -> In k (ids y).
Proof.
  intros O I. induction O; cbn [ids]; auto; [apply in_flat_map; eauto|apply in_flat_map; eauto|right; apply in_flat_map; eauto].
Qed.

Lemma box_hides i path def u (ms : list sym) cs k : Boxed pats path def -> In k (flat_map ids ms) ->
  forall y, occurs (YInst i path def u ms cs) y -> NoDup (ids y) -> forall own, ~ In own (ids y) ->
  forall e, emits own y e -> owner e <> k.
Proof.
  intros Bx K y O. induction O as [|u' l z Iz O IH|l z Iz O IH|i' p' d' u' l cs' z Iz O IH]; intros N own No e M Q; subst k.
  - cbn [ids] in N, No. inversion N as [|? ? N1 N2]; subst. inversion M; subst; try (cbn [owner] in K; contradiction).
  - assert (Kz : In (owner e) (ids z)) by (apply (occurs_ids _ z (owner e) O); cbn [ids]; now right).
    cbn [ids] in N, No. inversion M; subst.
    match goal with H : emits own ?yy e, H' : In ?yy l |- _ =>
      destruct (emits_owner _ _ _ H) as [Q|Q]; [apply No; rewrite <- Q; apply in_flat_map; eauto|];
      destruct (flat_nodup l yy z (owner e) N H' Iz Q Kz) as [->|[]];
      apply (IH (flat_nodup_in l z N Iz) own) with (e := e); auto end.
    intros J. apply No, in_flat_map. eauto.
  - assert (Kz : In (owner e) (ids z)) by (apply (occurs_ids _ z (owner e) O); cbn [ids]; now right).
    cbn [ids] in N, No. inversion M; subst.
    match goal with H : emits own ?yy e, H' : In ?yy l |- _ =>
      destruct (emits_owner _ _ _ H) as [Q|Q]; [apply No; rewrite <- Q; apply in_flat_map; eauto|];
      destruct (flat_nodup l yy z (owner e) N H' Iz Q Kz) as [->|[]];
      apply (IH (flat_nodup_in l z N Iz) own) with (e := e); auto end.
    intros J. apply No, in_flat_map. eauto.
  - assert (Kz : In (owner e) (ids z)) by (apply (occurs_ids _ z (owner e) O); cbn [ids]; now right).
    cbn [ids] in N, No. inversion N as [|? ? N1 N2]; subst.
    assert (Ki : owner e <> i') by (intros Ke; apply N1; rewrite <- Ke; apply in_flat_map; eauto).
    inversion M; subst; try (cbn [owner] in Ki; congruence).
    match goal with H : emits i' ?yy e, H' : In ?yy l |- _ =>
      destruct (emits_owner _ _ _ H) as [Q|Q]; [congruence|]; destruct (flat_nodup l yy z (owner e) N2 H' Iz Q Kz) as [->|[]];
      apply (IH (flat_nodup_in l z N2 Iz) i') with (e := e); auto end.
    intros J. apply N1, in_flat_map. eauto.
Qed.
End P.
