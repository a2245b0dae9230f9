From Coq Require Import Ascii String.
From Verif Require Import Base M_Graph S_Graph M_Range M_Netlist M_Text S_Text P_Text M_Serial M_Dot S_Dot.
Notation length := List.length.

Lemma subseq_in {A} (a b : list A) x : Subseq a b -> In x a -> In x b.
Proof. induction 1; simpl; intuition. Qed.
Lemma subseq_nodup {A} (a b : list A) : Subseq a b -> NoDup b -> NoDup a.
Proof.
  induction 1 as [|x a b S IH|x a b S IH]; intros N; auto; inversion N; subst; auto.
  constructor; auto. intros I. eapply subseq_in in I; eauto.
Qed.
Lemma subseq_app {A} (a b c d : list A) : Subseq a b -> Subseq c d -> Subseq (a ++ c) (b ++ d).
Proof. induction 1; simpl; intros; auto; constructor; auto. Qed.
Lemma subseq_none {A} (b : list A) : Subseq [] b.
Proof. induction b; constructor; auto. Qed.

Lemma included_iff f n : included f n = true <-> scope_of f n.
Proof.
  destruct f as [l|]; simpl; [|tauto]. rewrite existsb_exists. split.
  - intros (x & I & E). apply Nat.eqb_eq in E. now subst.
  - intros I. exists n. split; auto. apply Nat.eqb_refl.
Qed.

Section PDot.
Variable cval : Type.
Variable ctext : cval -> str.
Notation render := (@render cval ctext).
Notation NodeStmt := (@NodeStmt cval ctext range_toString).
Notation EdgeStmt := (@EdgeStmt cval range_toString).

Lemma label_iff (d : ndata cval) l : node_label cval ctext d = Some l <-> Label cval ctext range_toString d l.
Proof.
  split.
  - destruct d as [n p lc dir b|n p lc b|n p lc b|lc|lc|lc|v w lc| |]; simpl; intros E; try discriminate; injection E as <-;
      try (destruct dir); constructor.
  - destruct 1; reflexivity.
Qed.

Lemma write_nodes_ok (g : nlg cval) f : forall ns, (forall n, In n ns -> scope_of f n -> lnode g n <> DNone) ->
  exists ms sn, write_nodes cval ctext g f ns = Some (concat (map (stmt_text print_int) sn)) /\
    Subseq ms ns /\ (forall n, In n ms <-> In n ns /\ scope_of f n) /\ Forall2 (NodeStmt g) ms sn.
Proof.
  induction ns as [|n ns IH]; intros K.
  - exists [], []. split; [reflexivity|]. split; [constructor|]. split; [intros n; simpl; tauto|constructor].
  - destruct IH as (ms & sn & E & S & I & F). { intros m Hm. apply K. now right. }
    cbn [write_nodes]. destruct (included f n) eqn:In1; simpl negb; cbv iota.
    + apply included_iff in In1. unfold writeNode.
      destruct (node_label cval ctext (lnode g n)) as [l|] eqn:El.
      2:{ exfalso. apply (K n (or_introl eq_refl) In1). destruct (lnode g n); simpl in El; try discriminate; auto. }
      rewrite E. exists (n :: ms), (DNode (lid g n) l :: sn). split.
      * cbn [map concat stmt_text]. rewrite <- !app_assoc. reflexivity.
      * split; [now constructor|]. split.
        -- intros m. simpl. rewrite I. split; [intros [<-|H]; tauto|]. intros [[<-|H] H2]; tauto.
        -- constructor; auto. exists l. split; auto. now apply label_iff.
    + exists ms, sn. split; [exact E|]. split; [now constructor|]. split; [|exact F].
      intros m. rewrite I. simpl. split; [tauto|]. intros [[<-|H] H2]; [|tauto].
      apply included_iff in H2. congruence.
Qed.

Lemma write_edge_ok (g : nlg cval) e : exists s, EdgeStmt g e s /\ writeEdge cval g (esrc e) e = stmt_text print_int s.
Proof.
  unfold writeEdge, edge_symbol.
  destruct (dsym (ledge g (eid e))) as [i|] eqn:D.
  2:{ eexists. split; [exists None; split; [now apply E_null|reflexivity]|]. cbn [stmt_text]. now rewrite <- !app_assoc. }
  destruct (nth_error (lsyms g) i) as [s|] eqn:N.
  2:{ eexists. split; [exists None; split; [now apply E_dangling with i|reflexivity]|]. cbn [stmt_text]. now rewrite <- !app_assoc. }
  destruct (syname s) as [|c r] eqn:Y.
  - eexists. split; [exists None; split; [now apply E_empty with i s|reflexivity]|]. cbn [stmt_text]. now rewrite <- !app_assoc.
  - eexists. split; [eexists; split; [eapply E_named; eauto|reflexivity]|]. cbn [stmt_text].
    rewrite <- !app_assoc. cbn [app]. rewrite <- !app_assoc. reflexivity.
Qed.

Lemma write_edges_ok (g : nlg cval) f n : forall es, (forall e, In e es -> esrc e = n) ->
  exists ms se, write_edges cval g f n es = concat (map (stmt_text print_int) se) /\
    Subseq ms es /\ (forall e, In e ms <-> In e es /\ ddis (ledge g (eid e)) = false /\ scope_of f (etgt e)) /\
    Forall2 (EdgeStmt g) ms se.
Proof.
  induction es as [|e es IH]; intros K.
  - exists [], []. split; [reflexivity|]. split; [constructor|]. split; [intros x; simpl; tauto|constructor].
  - destruct IH as (ms & se & E & S & I & F). { intros m Hm. apply K. now right. }
    assert (K1 := K e (or_introl eq_refl)).
    cbn [write_edges]. destruct (ddis (ledge g (eid e))) eqn:D.
    + exists ms, se. split; [exact E|]. split; [now constructor|]. split; [|exact F].
      intros x. rewrite I. simpl. split; [tauto|]. intros [[<-|H] H2]; [|tauto]. destruct H2. congruence.
    + destruct (included f (etgt e)) eqn:T; simpl negb; cbv iota.
      * apply included_iff in T. destruct (write_edge_ok g e) as (s & Es & Et). rewrite K1 in Et.
        exists (e :: ms), (s :: se). split; [cbn [map concat]; now rewrite E, Et|]. split; [now constructor|]. split; [|now constructor].
        intros x. simpl. rewrite I. split; [intros [<-|H]; tauto|]. intros [[<-|H] H2]; tauto.
      * exists ms, se. split; [exact E|]. split; [now constructor|]. split; [|exact F].
        intros x. rewrite I. simpl. split; [tauto|]. intros [[<-|H] [H2 H3]]; [|tauto].
        apply included_iff in H3. congruence.
Qed.

Lemma write_all_ok (g : nlg cval) f : (forall n e, In e (outs (nst (lg g) n)) -> esrc e = n) -> forall ns,
  exists ms se, write_all_edges cval g f ns = concat (map (stmt_text print_int) se) /\
    Subseq ms (flat_map (fun n => outs (nst (lg g) n)) ns) /\
    (forall e, In e ms <-> In e (flat_map (fun n => outs (nst (lg g) n)) ns) /\ ddis (ledge g (eid e)) = false /\
                           scope_of f (esrc e) /\ scope_of f (etgt e)) /\
    Forall2 (EdgeStmt g) ms se.
Proof.
  intros K. induction ns as [|n ns IH].
  - exists [], []. split; [reflexivity|]. split; [constructor|]. split; [intros x; simpl; tauto|constructor].
  - destruct IH as (ms & se & E & S & I & F). cbn [write_all_edges flat_map].
    destruct (included f n) eqn:T; simpl negb; cbv iota.
    + apply included_iff in T.
      destruct (write_edges_ok g f n (outs (nst (lg g) n)) (K n)) as (m1 & s1 & E1 & S1 & I1 & F1).
      exists (m1 ++ ms), (s1 ++ se). split; [rewrite E1, E, map_app, concat_app; reflexivity|].
      split; [now apply subseq_app|]. split; [|now apply Forall2_app].
      intros e. rewrite !in_app_iff, I, I1. split.
      * intros [(A & B & C)|H]; [|tauto]. rewrite (K _ _ A). tauto.
      * intros ([A|A] & B & C & D); tauto.
    + exists ms, se. split; [exact E|]. split; [|split; [|exact F]].
      * apply (subseq_app []); auto. apply subseq_none.
      * intros e. rewrite in_app_iff, I. split; [tauto|]. intros ([A|A] & B & C & D); [|tauto].
        rewrite (K _ _ A) in C. apply included_iff in C. congruence.
Qed.

Lemma nodup_flat {A B} (f : A -> list B) (src : B -> A) l : NoDup l ->
  (forall a, In a l -> NoDup (f a)) -> (forall a b, In b (f a) -> src b = a) -> NoDup (flat_map f l).
Proof.
  induction 1 as [|a l N ND IH]; simpl; intros H1 H2; [constructor|].
  assert (G : forall x y : list B, NoDup x -> NoDup y -> (forall z, In z x -> ~ In z y) -> NoDup (x ++ y)).
  { clear. induction x as [|u x IH]; simpl; intros y N1 N2 D; auto. inversion N1; subst.
    constructor; [|apply IH; auto; intros z Hz; apply D; auto].
    rewrite in_app_iff. intros [H|H]; [auto|]. apply (D u); auto. }
  apply G; auto. intros b Hb Hc. apply in_flat_map in Hc. destruct Hc as (a' & Ha' & Hb').
  apply H2 in Hb. apply H2 in Hb'. subst. congruence.
Qed.

Lemma c58 (g : nlg cval) f : Mirror (lg g) -> (forall n, In n (gnodes (lg g)) -> scope_of f n -> lnode g n <> DNone) ->
  exists out, Induced cval ctext range_toString g f out /\ render g f = Some (doc_text print_int out).
Proof.
  intros M K. destruct (write_nodes_ok g f (gnodes (lg g)) K) as (ns & sn & E1 & S1 & I1 & F1).
  assert (Src : forall n e, In e (outs (nst (lg g) n)) -> esrc e = n) by (intros n e H; apply (mir_out _ M n e H)).
  destruct (write_all_ok g f Src (gnodes (lg g))) as (es & se & E2 & S2 & I2 & F2).
  exists (sn ++ se). split.
  - exists ns, es, sn, se. split; [reflexivity|]. split; [exact S1|]. split; [eapply subseq_nodup; [exact S1|apply M]|].
    split; [exact I1|]. split; [exact S2|]. split.
    + eapply subseq_nodup; [exact S2|]. apply (nodup_flat _ esrc); [apply M|intros a _; apply M|exact Src].
    + split; [exact I2|]. split; [exact F1|exact F2].
  - unfold M_Dot.render. rewrite E1, E2. unfold doc_text. rewrite map_app, concat_app, <- !app_assoc. reflexivity.
Qed.
Lemma c58_none (g : nlg cval) f : render g f = None <->
  exists n, In n (gnodes (lg g)) /\ scope_of f n /\ lnode g n = DNone.
Proof.
  assert (G : forall ns, write_nodes cval ctext g f ns = None <-> exists n, In n ns /\ scope_of f n /\ lnode g n = DNone).
  { induction ns as [|n ns IH]; simpl.
    - split; [discriminate|]. intros (n & [] & _).
    - destruct (included f n) eqn:T; simpl.
      + apply included_iff in T. unfold writeNode. destruct (node_label cval ctext (lnode g n)) as [l|] eqn:El.
        * destruct (write_nodes cval ctext g f ns) as [x|].
          -- split; [discriminate|]. intros (m & [<-|H] & H1 & H2); [rewrite H2 in El; discriminate|].
             destruct IH as [_ IH]. discriminate IH. eauto.
          -- split; [|auto]. intros _. destruct IH as [IH _]. destruct (IH eq_refl) as (m & H & H1). exists m. auto.
        * split; [|auto]. intros _. exists n. split; auto. split; auto. destruct (lnode g n); simpl in El; try discriminate; auto.
      + rewrite IH. split; intros (m & H & H1 & H2); exists m; split; auto.
        destruct H as [<-|H]; auto. apply included_iff in H1. congruence. }
  unfold M_Dot.render. destruct (write_nodes cval ctext g f (gnodes (lg g))) eqn:E.
  - split; [discriminate|]. intros H. apply G in H. congruence.
  - split; auto. intros _. now apply G.
Qed.
End PDot.

(** * Reading back *)
Definition Numeral (x : str) (z : Z) : Prop := x <> [] /\ DigitsVal 0 x z.

Definition nondigit (c : ascii) : Prop := forall v, ~ IsDigit c v.
Lemma digits_split : forall x x' a a' (c c' : ascii) r r' u u',
  DigitsVal u x a -> DigitsVal u' x' a' -> nondigit c -> nondigit c' ->
  x ++ c :: r = x' ++ c' :: r' -> x = x' /\ c = c' /\ r = r'.
Proof.
  induction x as [|d x IH]; intros x' a a' c c' r r' u u' D D' N N' E.
  - destruct x' as [|d' x']; simpl in E; injection E as -> E; auto.
    inversion D'; subst. exfalso. eapply N; eauto.
  - destruct x' as [|d' x']; simpl in E; injection E as -> E.
    + inversion D; subst. exfalso. eapply N'; eauto.
    + inversion D; subst. inversion D'; subst.
      destruct (IH x' a a' c c' r r' _ _ ltac:(eassumption) ltac:(eassumption) N N' E) as (-> & -> & ->). auto.
Qed.
Lemma digits_fun x u a b : DigitsVal u x a -> DigitsVal u x b -> a = b.
Proof. rewrite <- !digits_val_iff. congruence. Qed.
Lemma space_nondigit : nondigit " "%char.
Proof. intros v (H1 & H2). change (Z.of_nat (nat_of_ascii " "%char)) with 32%Z in H2. lia. Qed.
Lemma eol_nondigit : nondigit "010"%char.
Proof. intros v (H1 & H2). change (Z.of_nat (nat_of_ascii "010"%char)) with 10%Z in H2. lia. Qed.

Lemma quoted_split : forall q v q' v' r r', Quoted q v -> Quoted q' v' ->
  q ++ """"%char :: r = q' ++ """"%char :: r' -> q = q' /\ v = v' /\ r = r'.
Proof.
  intros q v q' v' r r' Q. revert q' v' r r'.
  induction Q as [|c s v N1 N2 Q IH|s v Q IH|c s v N Q IH]; intros q' v' r r' Q' E;
    inversion Q' as [|c' s' w M1 M2 Q1|s' w Q1|c' s' w M Q1]; subst; simpl in E; injection E; intros; subst;
    try congruence; auto.
  - destruct (IH _ _ _ _ Q1 ltac:(eassumption)) as (-> & -> & ->). auto.
  - destruct (IH _ _ _ _ Q1 ltac:(eassumption)) as (-> & -> & ->). auto.
  - destruct (IH _ _ _ _ Q1 ltac:(eassumption)) as (-> & -> & ->). auto.
Qed.

Lemma attr_split t l t' l' r r' : Attr t l -> Attr t' l' -> t ++ r = t' ++ r' -> l = l' /\ r = r'.
Proof.
  intros [q v Q] [q' v' Q'] E. rewrite <- !app_assoc in E. apply app_inv_head in E. cbn [lit list_ascii_of_string app] in E.
  destruct (quoted_split _ _ _ _ _ _ Q Q' E) as (-> & -> & E1). injection E1 as ->. auto.
Qed.
Lemma attr_space t l : Attr t l -> exists t', t = " "%char :: "["%char :: t'.
Proof. intros [q v Q]. eexists. reflexivity. Qed.

Lemma stmt_split t s t' s' r r' : StmtText Numeral t s -> StmtText Numeral t' s' -> t ++ r = t' ++ r' -> s = s' /\ r = r'.
Proof.
  intros H H' E.
  destruct H as [x a t l [_ Nx] At|x a y b [_ Nx] [_ Ny]|x a y b t l [_ Nx] [_ Ny] At];
  destruct H' as [x' a' t' l' [_ Nx'] At'|x' a' y' b' [_ Nx'] [_ Ny']|x' a' y' b' t' l' [_ Nx'] [_ Ny'] At'];
  rewrite <- !app_assoc in E; apply app_inv_head in E;
  try (destruct (attr_space _ _ At) as (t0 & Et)); try (destruct (attr_space _ _ At') as (t0' & Et'));
  try (rewrite Et in E); try (rewrite Et' in E); cbn [lit list_ascii_of_string app] in E;
  destruct (digits_split _ _ _ _ _ _ _ _ _ _ Nx Nx' space_nondigit space_nondigit E) as (-> & _ & E1);
  pose proof (digits_fun _ _ _ _ Nx Nx') as Ea; subst; try discriminate.
  - assert (E2 : (" "%char :: "["%char :: t0) ++ ["010"%char] ++ r = (" "%char :: "["%char :: t0') ++ ["010"%char] ++ r').
    { cbn [app]. now rewrite E1. }
    destruct (attr_split _ _ _ _ _ _ At At' E2) as (-> & E3). injection E3 as ->. auto.
  - injection E1 as E1.
    destruct (digits_split _ _ _ _ _ _ _ _ _ _ Ny Ny' eol_nondigit eol_nondigit E1) as (-> & _ & ->).
    pose proof (digits_fun _ _ _ _ Ny Ny') as Eb. subst. auto.
  - injection E1 as E1.
    destruct (digits_split _ _ _ _ _ _ _ _ _ _ Ny Ny' eol_nondigit space_nondigit E1) as (_ & F & _). discriminate.
  - injection E1 as E1.
    destruct (digits_split _ _ _ _ _ _ _ _ _ _ Ny Ny' space_nondigit eol_nondigit E1) as (_ & F & _). discriminate.
  - injection E1 as E1.
    destruct (digits_split _ _ _ _ _ _ _ _ _ _ Ny Ny' space_nondigit space_nondigit E1) as (-> & _ & E2).
    pose proof (digits_fun _ _ _ _ Ny Ny') as Eb. subst.
    assert (E3 : (" "%char :: "["%char :: t0) ++ ["010"%char] ++ r = (" "%char :: "["%char :: t0') ++ ["010"%char] ++ r').
    { cbn [app]. now rewrite E2. }
    destruct (attr_split _ _ _ _ _ _ At At' E3) as (-> & E4). injection E4 as ->. auto.
Qed.
Lemma stmt_head t s : StmtText Numeral t s -> exists t', t = " "%char :: t'.
Proof. intros [x a t0 l N A|x a y b N M|x a y b t0 l N M A]; eexists; reflexivity. Qed.

Lemma doc_unique t s s' : DocText Numeral t s -> DocText Numeral t s' -> s = s'.
Proof.
  intros H H'. destruct H as [ts ss F]. inversion H' as [ts' ss' F' E H1]. subst ss'. clear H'.
  revert ts' s' F' E.
  induction F as [|t s ts ss St F IH]; intros ts' s' F' E; destruct F' as [|t' s2 ts' ss' St' F']; cbn [concat] in E.
  - reflexivity.
  - destruct (stmt_head _ _ St') as (u & ->). discriminate.
  - destruct (stmt_head _ _ St) as (u & ->). discriminate.
  - rewrite <- !app_assoc in E. destruct (stmt_split _ _ _ _ _ _ St' St E) as (-> & E1).
    f_equal. eapply IH; eauto.
Qed.

(** Writing. *)
Definition clean (l : str) : Prop := ~ In """"%char l /\ ~ In "\"%char l.
Definition stmt_clean (s : dstmt) : Prop :=
  match s with DNode _ l | DEdge _ _ (Some l) => clean l | DEdge _ _ None => True end.
Definition stmt_nat (s : dstmt) : Prop :=
  match s with DNode a _ => 0 <= a | DEdge a b _ => 0 <= a /\ 0 <= b end%Z.
Lemma quoted_clean l : clean l -> Quoted l l.
Proof.
  induction l as [|c l IH]; intros [A B]; constructor.
  - intros ->. apply A. now left.
  - intros ->. apply B. now left.
  - apply IH. split; intros H; [apply A|apply B]; now right.
Qed.
Lemma numeral_print z : (0 <= z)%Z -> Numeral (print_int z) z.
Proof.
  intros H. unfold print_int. destruct (Z.ltb_spec z 0); [lia|]. now apply print_nonneg_ok.
Qed.
Lemma stmt_text_ok s : stmt_clean s -> stmt_nat s -> StmtText Numeral (stmt_text print_int s) s.
Proof.
  destruct s as [a l|a b [l|]]; simpl stmt_clean; simpl stmt_nat; intros C N; cbn [stmt_text].
  - pose proof (T_node Numeral _ _ _ _ (numeral_print a N) (A_label l l (quoted_clean l C))) as H.
    rewrite <- !app_assoc in H. exact H.
  - destruct N as [N1 N2].
    pose proof (T_edgel Numeral _ _ _ _ _ _ (numeral_print a N1) (numeral_print b N2) (A_label l l (quoted_clean l C))) as H.
    rewrite <- !app_assoc in H. exact H.
  - destruct N as [N1 N2]. exact (T_edge Numeral _ _ _ _ (numeral_print a N1) (numeral_print b N2)).
Qed.
Lemma doc_text_ok out : Forall stmt_clean out -> Forall stmt_nat out -> DocText Numeral (doc_text print_int out) out.
Proof.
  intros C N. unfold doc_text. apply T_doc. induction out as [|s out IH]; simpl; constructor.
  - inversion C; inversion N; subst. now apply stmt_text_ok.
  - inversion C; inversion N; subst. now apply IH.
Qed.

Lemma clean_app a b : clean a -> clean b -> clean (a ++ b).
Proof. intros [A1 A2] [B1 B2]. split; rewrite in_app_iff; intros [H|H]; auto. Qed.
Definition clean_char (c : ascii) : Prop := c <> """"%char /\ c <> "\"%char.
Lemma clean_all l : Forall clean_char l -> clean l.
Proof.
  induction 1 as [|c l [A B] F [C D]]; [split; intros []|].
  split; intros [->|H]; auto.
Qed.
Lemma digit_clean c v : IsDigit c v -> clean_char c.
Proof. intros [A B]. split; intros ->; [change (Z.of_nat (nat_of_ascii """"%char)) with 34%Z in B|change (Z.of_nat (nat_of_ascii "\"%char)) with 92%Z in B]; lia. Qed.
Lemma print_nonneg_clean z : (0 <= z)%Z -> clean (print_nonneg z).
Proof.
  intros H. destruct (print_nonneg_ok z H) as [_ D]. apply digits_chars in D.
  apply clean_all. eapply Forall_impl; [|exact D]. intros c (v & V). eapply digit_clean; eauto.
Qed.
Lemma print_int_clean z : clean (print_int z).
Proof.
  unfold print_int. destruct (Z.ltb_spec z 0).
  - apply (clean_app [c_minus]); [apply clean_all; repeat constructor; discriminate|apply print_nonneg_clean; lia].
  - apply print_nonneg_clean. lia.
Qed.
Ltac clean_lit := apply clean_all; vm_compute; repeat constructor; discriminate.
Lemma range_clean r : clean (range_toString r).
Proof.
  unfold range_toString. destruct (lower r =? upper r)%Z.
  - apply (clean_app [c_open]); [clean_lit|]. apply clean_app; [apply print_int_clean|clean_lit].
  - apply (clean_app [c_open]); [clean_lit|]. apply clean_app; [apply print_int_clean|].
    apply (clean_app [c_colon]); [clean_lit|]. apply clean_app; [apply print_int_clean|clean_lit].
Qed.

(** What the names of the design have to avoid. *)
Definition data_clean {cval} (ctext : cval -> str) (d : ndata cval) : Prop :=
  match d with
  | DPort n _ _ _ _ | DVariable n _ _ _ | DState n _ _ _ => clean n
  | DConstant v _ _ => clean (ctext v)
  | _ => True
  end.
Section Clean.
Variable cval : Type.
Variable ctext : cval -> str.
Lemma label_clean (d : ndata cval) l : data_clean ctext d -> Label cval ctext range_toString d l -> clean l.
Proof.
  intros C L. destruct L; simpl in C; try clean_lit.
  1,2,3,4,5,7: apply clean_app; auto; clean_lit.
  apply clean_app; auto. apply (clean_app [" "%char]); [clean_lit|apply range_clean].
Qed.
Lemma induced_clean (g : nlg cval) f out :
  (forall n, In n (gnodes (lg g)) -> data_clean ctext (lnode g n)) ->
  (forall s, In s (lsyms g) -> clean (syname s)) ->
  Induced cval ctext range_toString g f out -> Forall stmt_clean out.
Proof.
  intros C S (ns & es & sn & se & -> & S1 & _ & _ & _ & _ & _ & F1 & F2). apply Forall_app. split.
  - assert (I : forall n, In n ns -> In n (gnodes (lg g))) by (intros n; apply subseq_in, S1). clear S1 F2.
    induction F1 as [|n s ns sn (l & L & ->) F IH]; constructor.
    + simpl. eapply label_clean; [|exact L]. apply C, I. now left.
    + apply IH. intros m Hm. apply I. now right.
  - clear F1. induction F2 as [|e s es se (l & L & ->) F IH]; constructor; auto. simpl.
    destruct L as [i s c r _ N Y| | |]; auto.
    apply (clean_app (c :: r)); [|apply range_clean]. rewrite <- Y. apply S. eapply nth_error_In; eauto.
Qed.
Lemma induced_nat (g : nlg cval) f out :
  (forall n, 0 <= lid g n)%Z -> Induced cval ctext range_toString g f out -> Forall stmt_nat out.
Proof.
  intros I (ns & es & sn & se & -> & _ & _ & _ & _ & _ & _ & F1 & F2). apply Forall_app. split.
  - clear F2. induction F1 as [|n s ns sn (l & L & ->) F IH]; constructor; auto. simpl. apply I.
  - clear F1. induction F2 as [|e s es se (l & L & ->) F IH]; constructor; auto. simpl. split; apply I.
Qed.
Lemma c82 (g : nlg cval) f : Mirror (lg g) -> (forall n, 0 <= lid g n)%Z ->
  (forall n, In n (gnodes (lg g)) -> lnode g n <> DNone) ->
  (forall n, In n (gnodes (lg g)) -> data_clean ctext (lnode g n)) ->
  (forall s, In s (lsyms g) -> clean (syname s)) ->
  exists t out, render cval ctext g f = Some t /\ Induced cval ctext range_toString g f out /\
    forall out', DocText Numeral t out' <-> out' = out.
Proof.
  intros M I K C S. destruct (c58 cval ctext g f M) as (out & In1 & E); [auto|].
  exists (doc_text print_int out), out. split; [exact E|]. split; [exact In1|].
  assert (D : DocText Numeral (doc_text print_int out) out).
  { apply doc_text_ok; [eapply induced_clean; eauto|eapply induced_nat; eauto]. }
  intros out'. split; [|intros ->; exact D]. intros D'. eapply doc_unique; eauto.
Qed.
End Clean.

(** No reading when a label has a quote in the middle. *)
Lemma broken_label rest q c : c <> "]"%char -> clean q -> ~ exists out,
  DocText Numeral (lit "digraph {" ++ "010"%char :: lit "  node [shape=record];" ++ "010"%char ::
    lit "  N1 [label=""" ++ q ++ """"%char :: c :: rest) out.
Proof.
  intros Hc Q (out & D). inversion D as [ts ss F E H]. subst ss. clear D.
  destruct F as [|t s ts ss St F]; [discriminate|]. cbn [concat] in E. rewrite <- !app_assoc in E.
  assert (N1 : DigitsVal 0 ["1"%char] 1). { apply digits_val_iff. reflexivity. }
  destruct St as [x a t l [_ Nx] At|x a y b [_ Nx] [_ Ny]|x a y b t l [_ Nx] [_ Ny] At];
    rewrite <- !app_assoc in E; cbn [lit list_ascii_of_string app] in E; injection E as E.
  - destruct At as [q' v' Q']. rewrite <- !app_assoc in E. cbn [lit list_ascii_of_string app] in E.
    destruct (digits_split _ ["1"%char] _ _ " "%char " "%char _ _ _ _ Nx N1 space_nondigit space_nondigit E) as (_ & _ & E1).
    injection E1 as E1.
    destruct (quoted_split _ _ _ _ _ _ Q' (quoted_clean _ Q) E1) as (_ & _ & E2). injection E2 as E2 _. congruence.
  - destruct (digits_split _ ["1"%char] _ _ " "%char " "%char _ _ _ _ Nx N1 space_nondigit space_nondigit E) as (_ & _ & E1).
    discriminate.
  - destruct (digits_split _ ["1"%char] _ _ " "%char " "%char _ _ _ _ Nx N1 space_nondigit space_nondigit E) as (_ & _ & E1).
    discriminate.
Qed.
