From Coq Require Import Ascii String.
From Verif Require Import Base M_Graph S_Graph S_Reach M_Range M_Netlist S_Netlist M_Text M_Serial M_Dot M_Report S_Report
  M_Path P_Path M_Cycle S_Cycle P_Cycle.
Notation length := List.length.

Section PReport.
Variable cval : Type.
Variable g : nlg cval.
Hypothesis M : Mirror (lg g).

Lemma loc_known l : known_file cval g l -> exists t, loc_text (lfiles g) l = ROk t /\ LocText cval g l t.
Proof.
  intros (t & H). exists t. split; auto. unfold loc_text, no_file. destruct H as [l E|l f E N].
  - rewrite E. reflexivity.
  - destruct (Z.eqb_spec (lfile l) 4294967295); [lia|]. now rewrite N.
Qed.
Lemma note_known l what : known_file cval g l -> exists t, note (lfiles g) l what = ROk t /\ Note cval g l what t.
Proof.
  intros H. destruct (loc_known l H) as (t & E & L). unfold note. rewrite E. cbn [rbind]. eexists. split; [reflexivity|].
  now constructor.
Qed.

Definition on_file (d : ndata cval) : Prop := forall l, data_loc cval d = Some l -> known_file cval g l.
Lemma node_text_ok d : on_file d -> ~ OddPort cval d -> exists t, reportNodeText cval (lfiles g) d = ROk t /\ NodeNote cval g d t.
Proof.
  intros F O. destruct d as [n p l dir b|n p l b|n p l b|l|l|l|v w l| |]; cbn [reportNodeText].
  2,3,7,8,9: eexists; split; [reflexivity|]; constructor.
  - destruct dir.
    + destruct (note_known l (lit "input port " ++ n)) as (t & E & N); [now apply F|]. exists t. split; auto. now constructor.
    + destruct (note_known l (lit "output port " ++ n)) as (t & E & N); [now apply F|]. exists t. split; auto. now constructor.
    + exfalso. apply O. exists n, p, l, DInOut, b. split; [auto|split; discriminate].
    + exfalso. apply O. exists n, p, l, DRef, b. split; [auto|split; discriminate].
  - destruct (note_known l (lit "assignment")) as (t & E & N); [now apply F|]. exists t. split; auto. now constructor.
  - destruct (note_known l (lit "conditional statement")) as (t & E & N); [now apply F|]. exists t. split; auto. now constructor.
  - destruct (note_known l (lit "case statement")) as (t & E & N); [now apply F|]. exists t. split; auto. now constructor.
Qed.
Lemma node_text_odd d : on_file d -> OddPort cval d -> reportNodeText cval (lfiles g) d = RUnreach.
Proof.
  intros F (n & p & l & dir & b & -> & H1 & H2). destruct (loc_known l) as (t & E & _); [now apply F|].
  cbn [reportNodeText]. destruct dir; try congruence; now rewrite E.
Qed.
Lemma node_diag_ok d : ~ OddPort cval d -> exists t, reportNodeDiag cval d = ROk t /\ NodeDiag cval d t.
Proof.
  intros O. destruct d as [n p l dir b|n p l b|n p l b|l|l|l|v w l| |]; cbn [reportNodeDiag].
  2-9: eexists; split; [reflexivity|]; constructor.
  destruct dir.
  1,2: eexists; split; [reflexivity|]; constructor.
  all: exfalso; apply O; eexists _, _, _, _, _; split; [reflexivity|split; discriminate].
Qed.
Lemma node_diag_odd d : OddPort cval d -> reportNodeDiag cval d = RUnreach.
Proof. intros (n & p & l & dir & b & -> & H1 & H2). destruct dir; try congruence; reflexivity. Qed.

Lemma carries_iff e s : Carries cval g e s <-> edge_symbol cval g e = Some s /\ syname s <> [].
Proof.
  unfold Carries, edge_symbol. split.
  - intros (i & -> & E & N). auto.
  - destruct (dsym (ledge g (eid e))) as [i|]; intros [E N]; [|discriminate]. exists i. auto.
Qed.
Definition syms_known : Prop := forall s, In s (lsyms g) -> known_file cval g (syloc s).
Lemma edge_symbol_in e s : edge_symbol cval g e = Some s -> In s (lsyms g).
Proof.
  unfold edge_symbol. destruct (dsym (ledge g (eid e))); [|discriminate]. apply nth_error_In.
Qed.
Lemma edge_text_ok e : syms_known -> exists t, reportEdgeText cval g e = ROk t /\ EdgeNote cval g e t.
Proof.
  intros K. unfold reportEdgeText. destruct (edge_symbol cval g e) as [s|] eqn:E.
  - destruct (syname s) as [|c r] eqn:Y.
    + exists []. split; auto. apply EN_none. intros s'. rewrite carries_iff, E. intros [H N]. injection H as <-. congruence.
    + destruct (note_known (syloc s) (lit "value " ++ value_text cval g e s)) as (t & Et & Nt).
      { apply K. eapply edge_symbol_in; eauto. }
      exists t. split; [exact Et|]. apply EN_value with s; auto. apply carries_iff. rewrite Y. split; auto. discriminate.
  - exists []. split; auto. apply EN_none. intros s'. rewrite carries_iff, E. intros [H N]. discriminate.
Qed.
Lemma edge_diag_ok e : exists t, reportEdgeDiag cval g e = ROk t /\ EdgeDiag cval g e t.
Proof.
  unfold reportEdgeDiag. destruct (edge_symbol cval g e) as [s|] eqn:E.
  - destruct (syname s) as [|c r] eqn:Y.
    + exists []. split; auto. apply ED_none. intros s'. rewrite carries_iff, E. intros [H N]. injection H as <-. congruence.
    + eexists. split; [reflexivity|]. apply ED_value. apply carries_iff. rewrite Y. split; auto. discriminate.
  - exists []. split; auto. apply ED_none. intros s'. rewrite carries_iff, E. intros [H N]. discriminate.
Qed.

Lemma find_edge a b : Conn (nl_of cval g) a b ->
  exists e, findEdgeTo (nst (lg g) a) b = Some e /\ In e (outs (nst (lg g) a)) /\ etgt e = b.
Proof.
  intros (e & I & T & _). unfold findEdgeTo. destruct (find (to b) (outs (nst (lg g) a))) as [e'|] eqn:E.
  - apply find_some in E. destruct E as [E1 E2]. apply Nat.eqb_eq in E2. eauto.
  - exfalso. apply (find_none _ _ E) in I. unfold to in I. apply Nat.eqb_neq in I. congruence.
Qed.

Section Gen.
Context {A : Type}.
Variable node : ndata cval -> rres (list A).
Variable edge_ : edge -> rres (list A).
Variable N : ndata cval -> list A -> Prop.
Variable E : edge -> list A -> Prop.
Variable good : ndata cval -> Prop.
Hypothesis node_ok : forall d, good d -> ~ OddPort cval d -> exists t, node d = ROk t /\ N d t.
Hypothesis node_odd : forall d, good d -> OddPort cval d -> node d = RUnreach.
Hypothesis edge_ok : forall e, exists t, edge_ e = ROk t /\ E e t.

(** The edges that are reported are the first ones. *)
Fixpoint firsts (p : list nat) (es : list edge) : Prop :=
  match p, es with
  | [_], [] => True
  | a :: ((b :: _) as r), e :: es' => findEdgeTo (nst (lg g) a) b = Some e /\ firsts r es'
  | _, _ => False
  end.
Lemma walk_ok : forall r a, Walk (Conn (nl_of cval g)) (a :: r) ->
  (forall n, In n (a :: r) -> good (lnode g n) /\ ~ OddPort cval (lnode g n)) ->
  exists es t, report_walk cval node edge_ g a r = ROk t /\ Along cval g N E (a :: r) es t /\ firsts (a :: r) es.
Proof.
  induction r as [|b r IH]; intros a W G.
  - destruct (G a (or_introl eq_refl)) as [G1 G2]. destruct (node_ok _ G1 G2) as (t & Et & Nt).
    exists [], t. split; [exact Et|]. split; [now constructor|exact I].
  - destruct W as [C W']. destruct (find_edge a b C) as (e & F & Ie & Te).
    destruct (G a (or_introl eq_refl)) as [G1 G2]. destruct (node_ok _ G1 G2) as (ta & Ea & Na).
    destruct (edge_ok e) as (te & Ee & Ne).
    destruct (IH b W') as (es & tr & Er & Al & Fs). { intros n Hn. apply G. now right. }
    exists (e :: es), (ta ++ te ++ tr). cbn [report_walk]. rewrite F, Ea. cbn [rbind]. rewrite Ee. cbn [rbind]. rewrite Er. cbn [rbind].
    split; [reflexivity|]. split; [apply Al_step; auto|]. split; auto.
Qed.
Lemma walk_odd : forall r a, Walk (Conn (nl_of cval g)) (a :: r) ->
  (forall n, In n (a :: r) -> good (lnode g n)) -> (exists n, In n (a :: r) /\ OddPort cval (lnode g n)) ->
  report_walk cval node edge_ g a r = RUnreach.
Proof.
  assert (D : forall d, good d -> node d = RUnreach \/ ~ OddPort cval d).
  { intros d Gd. destruct d as [n p l dir b|n p l b|n p l b|l|l|l|v w l| |].
    2-9: right; intros (? & ? & ? & ? & ? & H & _); discriminate.
    destruct dir.
    - right. intros (? & ? & ? & ? & ? & H & H1 & H2). congruence.
    - right. intros (? & ? & ? & ? & ? & H & H1 & H2). congruence.
    - left. apply node_odd; auto. eexists _, _, _, _, _. split; [reflexivity|split; discriminate].
    - left. apply node_odd; auto. eexists _, _, _, _, _. split; [reflexivity|split; discriminate]. }
  induction r as [|b r IH]; intros a W G (n & In1 & O).
  - destruct In1 as [<-|[]]. cbn [report_walk]. apply node_odd; auto. apply G. now left.
  - destruct W as [C W']. destruct (find_edge a b C) as (e & F & Ie & Te).
    cbn [report_walk]. rewrite F. destruct (D (lnode g a) (G a (or_introl eq_refl))) as [->|No]; [reflexivity|].
    destruct (node_ok _ (G a (or_introl eq_refl)) No) as (ta & -> & _). cbn [rbind].
    destruct (edge_ok e) as (te & -> & _). cbn [rbind].
    rewrite (IH b); auto.
    + intros m Hm. apply G. now right.
    + exists n. split; auto. destruct In1 as [<-|In1]; [contradiction|auto].
Qed.
End Gen.

Section Files.
Hypothesis FK : FilesKnown cval g.
Variable p : list nat.
Hypothesis W : Walk (Conn (nl_of cval g)) p.
Hypothesis P : p <> [].
Hypothesis PN : forall n, In n p -> In n (gnodes (lg g)).

Lemma report_ok diags live : (forall n, In n p -> ~ OddPort cval (lnode g n)) ->
  exists es r, reportPath cval g diags live p = ROk r /\ firsts p es /\
    match r with
    | RepText t => Along cval g (NodeNote cval g) (EdgeNote cval g) p es t
    | RepDiag l => Along cval g (NodeDiag cval) (EdgeDiag cval g) p es l
    end.
Proof.
  intros O. destruct FK as [FK1 FK2]. destruct p as [|a r]; [congruence|]. unfold reportPath, report_loop.
  destruct (diags && use_diag cval g live (a :: r)).
  - destruct (walk_ok (reportNodeDiag cval) (reportEdgeDiag cval g) (NodeDiag cval) (EdgeDiag cval g) (fun _ => True)
      (fun d _ => node_diag_ok d) edge_diag_ok r a W) as (es & t & E & A & F); [auto|].
    rewrite E. exists es, (RepDiag t). auto.
  - destruct (walk_ok (reportNodeText cval (lfiles g)) (reportEdgeText cval g) (NodeNote cval g) (EdgeNote cval g) on_file
      node_text_ok (fun e => edge_text_ok e FK2) r a W) as (es & t & E & A & F).
    { intros n Hn. split; auto. intros l Hl. eapply FK1; [|exact Hl]. apply PN. exact Hn. }
    rewrite E. exists es, (RepText t). auto.
Qed.
Lemma report_odd diags live : (exists n, In n p /\ OddPort cval (lnode g n)) ->
  reportPath cval g diags live p = RUnreach.
Proof.
  intros O. destruct FK as [FK1 FK2]. destruct p as [|a r]; [congruence|]. unfold reportPath, report_loop.
  destruct (diags && use_diag cval g live (a :: r)).
  - rewrite (walk_odd (reportNodeDiag cval) (reportEdgeDiag cval g) (NodeDiag cval) (EdgeDiag cval g) (fun _ => True)
      (fun d _ => node_diag_ok d) (fun d _ => node_diag_odd d) edge_diag_ok r a W); auto.
  - rewrite (walk_odd (reportNodeText cval (lfiles g)) (reportEdgeText cval g) (NodeNote cval g) (EdgeNote cval g) on_file
      node_text_ok node_text_odd (fun e => edge_text_ok e FK2) r a W); auto.
    intros n Hn l Hl. eapply FK1; [|exact Hl]. apply PN. exact Hn.
Qed.
End Files.

Lemma located_dec d : match getNodeLocation cval d with Some _ => Located cval d | None => ~ Located cval d end.
Proof. destruct d as [? ? ? ? ?|? ? ? ?|? ? ? ?|?|?|?|? ? ?| |]; cbn; try constructor; intros H; inversion H. Qed.
Lemma use_diag_iff live : forall p, use_diag cval g live p = true <-> WithSource cval g true live p.
Proof.
  unfold WithSource. induction p as [|a p IH]; cbn [use_diag].
  - split; [discriminate|]. intros (_ & [|x0 pre] & n0 & suf & E & _); discriminate.
  - pose proof (located_dec (lnode g a)) as L. destruct (getNodeLocation cval (lnode g a)) as [l|].
    + split.
      * intros H. split; auto. exists [], a, p. repeat split; auto.
      * intros (_ & [|x pre] & n & suf & E & N & Ln & H); injection E as -> ->; auto. destruct (N x); auto. now left.
    + rewrite IH. split.
      * intros (_ & pre & n & suf & -> & N & Ln & H). split; auto. exists (a :: pre), n, suf. repeat split; auto.
        intros m [<-|I]; auto.
      * intros (_ & [|x pre] & n & suf & E & N & Ln & H); injection E as -> ->; [contradiction|]. split; auto.
        exists pre, n, suf. repeat split; auto. intros m I. apply N. now right.
Qed.
Lemma mode_iff diags live p r : reportPath cval g diags live p = ROk r ->
  ((exists l, r = RepDiag l) <-> WithSource cval g diags live p).
Proof.
  intros E. unfold reportPath in E. destruct diags; cbn [andb] in E.
  - rewrite <- use_diag_iff. destruct (use_diag cval g live p).
    + destruct (report_loop _ _ _ _ _); cbn in E; try discriminate. injection E as <-. split; eauto.
    + destruct (report_loop _ _ _ _ _); cbn in E; try discriminate. injection E as <-. split; [intros (l & H)|intros H]; discriminate.
  - destruct (report_loop _ _ _ _ _); cbn in E; try discriminate. injection E as <-.
    split; [intros (l & H); discriminate|intros (H & _); discriminate].
Qed.

Lemma walk_nodes p n : Walk (Conn (nl_of cval g)) p -> In n p -> (forall a, p = [a] -> In a (gnodes (lg g))) -> In n (gnodes (lg g)).
Proof.
  revert n. induction p as [|a l IH]; intros n W I H; [destruct I|].
  destruct l as [|b l]; [destruct I as [<-|[]]; auto|]. destruct W as [C W].
  destruct C as (e & Ie & Te & _). destruct (mir_out _ M _ _ Ie) as (_ & Na & Nb & _). rewrite Te in Nb.
  destruct I as [<-|I]; auto. apply IH; auto. intros c Hc. injection Hc as <- _. exact Nb.
Qed.

(** The paths that are reported. *)
Definition Produced (p : list nat) : Prop :=
  p <> [] /\
  ((exists s e, In s (gnodes (lg g)) /\ In e (gnodes (lg g)) /\
      (pf_find (nl_of cval g) s e = PPath p \/ pf_findComb (nl_of cval g) s e = PPath p)) \/
   (exists ls, getAllLoops (nl_of cval g) = Some ls /\ In p ls)).
Lemma produced_walk p : DistinctIDs (nl_of cval g) -> Produced p ->
  Walk (Conn (nl_of cval g)) p /\ forall n, In n p -> In n (gnodes (lg g)).
Proof.
  intros D (P & [(s & e & Is & Ie & H)|(ls & L & I)]).
  - assert (W : Walk (Conn (nl_of cval g)) p /\ hd_error p = Some s).
    { destruct H as [H|H].
      - destruct (c11 (nl_of cval g) s e M Is Ie) as (q & Eq & K). rewrite H in Eq. injection Eq as <-.
        destruct (K P) as (K1 & _ & _ & K2). auto.
      - destruct (c13 (nl_of cval g) s e M Is Ie) as (q & Eq & K & _). rewrite H in Eq. injection Eq as <-.
        destruct (K P) as (K1 & _ & _ & K2 & _). auto. }
    destruct W as [W Hd]. split; auto. intros n Hn. apply (walk_nodes p n W Hn).
    intros a Ea. rewrite Ea in Hd. injection Hd as ->. exact Is.
  - destruct (c14 (nl_of cval g) M D) as (ls' & L' & S & _). rewrite L in L'. injection L' as <-.
    destruct (S p I) as [(h & t & -> & ND & W & C) _].
    assert (W1 : Walk (Conn (nl_of cval g)) (h :: t)).
    { clear - W. revert h W. induction t as [|b t IH]; intros h W; simpl; auto. destruct W as [[C _] W]. split; auto.
      apply IH. exact W. }
    split; auto. intros n Hn. apply (walk_nodes _ n W1 Hn). intros a Ea. injection Ea as <- ->. simpl in C.
    destruct C as ((e & Ie & Te & _) & _). apply (mir_out _ M _ _ Ie).
Qed.
End PReport.
