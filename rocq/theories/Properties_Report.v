(** C60 and C83: reporting paths and loops. *)
From Coq Require Import Ascii String.
From Verif Require Import Base M_Graph S_Graph P_Graph S_Reach M_Range M_Netlist S_Netlist M_Text M_Serial M_Dot M_Report S_Report
  M_Path P_Path M_Cycle P_Cycle P_Report.
Notation length := List.length.

(** ** C60. A path that is produced and has only input and output ports is reported, as text
    or as diagnostics: its nodes in order, each pair of neighbours with an edge between
    them. *)
Theorem c60_reported_partial : forall cval (g : nlg cval) p diags live, Mirror (lg g) ->
  DistinctIDs (nl_of cval g) -> FilesKnown cval g -> Produced cval g p ->
  (forall n, In n p -> ~ OddPort cval (lnode g n)) ->
  exists es r, reportPath cval g diags live p = ROk r /\
    match r with
    | RepText t => Along cval g (NodeNote cval g) (EdgeNote cval g) p es t
    | RepDiag l => Along cval g (NodeDiag cval) (EdgeDiag cval g) p es l
    end.
Proof.
  intros cval g p diags live M D F P O. destruct (produced_walk cval g M p D P) as [W N].
  destruct (report_ok cval g F p W (proj1 P) N diags live O) as (es & r & E & _ & A). eauto.
Qed.
Print Assumptions c60_reported_partial.
(** Diagnostics are used exactly when they exist and the first node that has a line of its own
    still has its source text. *)
Theorem c60_mode : forall cval (g : nlg cval) p diags live r, reportPath cval g diags live p = ROk r ->
  ((exists l, r = RepDiag l) <-> WithSource cval g diags live p).
Proof. intros cval g p diags live. exact (mode_iff cval g diags live p). Qed.
Print Assumptions c60_mode.
(** Any other port on the path is undefined behaviour, and it is the only cause. *)
Theorem c60_unreachable_exact : forall cval (g : nlg cval) p diags live, Mirror (lg g) ->
  DistinctIDs (nl_of cval g) -> FilesKnown cval g -> Produced cval g p ->
  (reportPath cval g diags live p = RUnreach <-> exists n, In n p /\ OddPort cval (lnode g n)) /\
  (forall r, reportPath cval g diags live p = r -> r = RUnreach \/ exists x, r = ROk x).
Proof.
  intros cval g p diags live M D F P. destruct (produced_walk cval g M p D P) as [W N].
  assert (X : (exists n, In n p /\ OddPort cval (lnode g n)) \/ (forall n, In n p -> ~ OddPort cval (lnode g n))).
  { assert (Dec : forall d, OddPort cval d \/ ~ OddPort cval d).
    { intros d. destruct d as [n q l dir b|n q l b|n q l b|l|l|l|v w l| |].
      2-9: right; intros (? & ? & ? & ? & ? & H & _); discriminate.
      destruct dir.
      1,2: right; intros (? & ? & ? & ? & ? & H & H1 & H2); congruence.
      all: left; eexists _, _, _, _, _; split; [reflexivity|split; discriminate]. }
    clear - Dec. induction p as [|a p [(n & I & O)|IH]]; [right; intros n []|left; exists n; split; auto; now right|].
    destruct (Dec (lnode g a)) as [O|O]; [left; exists a; split; auto; now left|].
    right. intros n [<-|I]; auto. }
  destruct X as [X|X].
  - pose proof (report_odd cval g F p W (proj1 P) N diags live X) as E. rewrite E. split; [tauto|]. intros r <-. auto.
  - destruct (report_ok cval g F p W (proj1 P) N diags live X) as (es & r & E & _). rewrite E. split.
    + split; [discriminate|]. intros (n & I & O). destruct (X n I O).
    + intros r' <-. right. eauto.
Qed.
Print Assumptions c60_unreachable_exact.

(** Examples: a port, an assignment and a port in a row. *)
Definition rl (k : Z) : loc := Loc 0 k 7.
Definition rg (dir : direction) (first : bool) : nlg str :=
  NL [lit "a.sv"] [] (mk_graph 3 [(0, 1); (0, 1); (1, 2)])
     (fun n => nth n [DPort (lit "x") (lit "t.x") (rl 1) dir (Range 0 3)%Z; DAssignment (rl 3);
                      DPort (lit "y") (lit "t.y") (rl 2) DOut (Range 0 3)%Z] DNone)
     (fun n => Z.of_nat (S n))
     (fun e => nth e [ED EKNone (Some 0) (Range 0 3)%Z first; ED EKNone (Some 0) (Range 4 7)%Z false;
                      ED EKNone (Some 1) (Range 0 3)%Z false] edge0)
     [Sym (lit "x") (lit "t.x") (rl 1); Sym (lit "y") (lit "t.y") (rl 2)].
Definition eol : str := ["010"%char].
Lemma rg_mirror d f : Mirror (lg (rg d f)).
Proof. apply c01 with (thr := outEdgeIndexThreshold), mk_graph_reachable. Qed.
Lemma rg_ids d f : DistinctIDs (nl_of str (rg d f)).
Proof. intros a b Ha Hb E. cbn -[Z.of_nat] in E. lia. Qed.
Lemma rg_files d f : FilesKnown str (rg d f).
Proof.
  assert (K : forall k, known_file str (rg d f) (rl k)).
  { intros k. eexists. eapply LT_file; [simpl; lia|reflexivity]. }
  split.
  - intros n l Hn. cbn in Hn. destruct Hn as [<-|[<-|[<-|[]]]]; cbn; intros E; injection E as <-; apply K.
  - intros s [<-|[<-|[]]]; apply K.
Qed.
Lemma rg_produced d f : Produced str (rg d f) [0; 1; 2].
Proof.
  split; [discriminate|]. left. exists 0, 2. split; [cbn; auto|]. split; [cbn; auto|]. left.
  destruct f; vm_compute; reflexivity.
Qed.
Example c60_text : reportPath str (rg DIn false) false (fun _ => true) [0; 1; 2] = ROk (RepText
  (lit "a.sv:1:7: note: input port x" ++ eol ++ lit "a.sv:1:7: note: value t.x[3:0]" ++ eol ++
   lit "a.sv:3:7: note: assignment" ++ eol ++ lit "a.sv:2:7: note: value t.y[3:0]" ++ eol ++
   lit "a.sv:2:7: note: output port y" ++ eol)).
Proof. vm_compute. reflexivity. Qed.
Example c60_diag : reportPath str (rg DIn false) true (fun _ => true) [0; 1; 2] = ROk (RepDiag
  [GIn (lit "x"); GValue (lit "t.x[3:0]"); GAssign; GValue (lit "t.y[3:0]"); GOut (lit "y")]).
Proof. vm_compute. reflexivity. Qed.
Example c60_no_source : exists t, reportPath str (rg DIn false) true (fun n => negb (n =? 0)) [0; 1; 2] = ROk (RepText t).
Proof. eexists. vm_compute. reflexivity. Qed.
Example c60_not_called_empty : reportPath str (rg DIn false) false (fun _ => true) [] = ROob.
Proof. reflexivity. Qed.

(** A path from an inout port is found, and reporting it is undefined behaviour. *)
Theorem c60_never_undefined_refuted : ~ (forall cval (g : nlg cval) p diags live, Mirror (lg g) ->
  DistinctIDs (nl_of cval g) -> FilesKnown cval g -> Produced cval g p ->
  exists r, reportPath cval g diags live p = ROk r).
Proof.
  intros H. destruct (H str (rg DInOut false) [0; 1; 2] false (fun _ => true)) as (r & E);
    [apply rg_mirror|apply rg_ids|apply rg_files|apply rg_produced|]. vm_compute in E. discriminate.
Qed.
Print Assumptions c60_never_undefined_refuted.
(** A loaded netlist may name files that are not in its table; then the report ends in an
    exception. *)
Theorem c60_files_needed_refuted : ~ (forall cval (g : nlg cval) p diags live, Mirror (lg g) ->
  DistinctIDs (nl_of cval g) -> Produced cval g p -> (forall n, In n p -> ~ OddPort cval (lnode g n)) ->
  exists r, reportPath cval g diags live p = ROk r).
Proof.
  intros H.
  set (g := NL [] [] (lg (rg DIn false)) (lnode (rg DIn false)) (lid (rg DIn false)) (ledge (rg DIn false)) (lsyms (rg DIn false))).
  destruct (H str g [0; 1; 2] false (fun _ => true)) as (r & E).
  - apply (rg_mirror DIn false).
  - apply (rg_ids DIn false).
  - apply (rg_produced DIn false).
  - intros n Hn. destruct Hn as [<-|[<-|[<-|[]]]]; cbn; intros (? & ? & ? & ? & ? & E & H1 & H2); try discriminate;
      injection E as <- <- <- <- <-; auto.
  - vm_compute in E. discriminate.
Qed.
Print Assumptions c60_files_needed_refuted.

(** ** C83. When enabled and disabled edges do not run in parallel, every value that is
    reported is that of an enabled edge between the two nodes. *)
Theorem c83_enabled_values_partial : forall cval (g : nlg cval) p diags live, Mirror (lg g) ->
  DistinctIDs (nl_of cval g) -> FilesKnown cval g -> Produced cval g p ->
  (forall n, In n p -> ~ OddPort cval (lnode g n)) ->
  (forall a e1 e2, In e1 (outs (nst (lg g) a)) -> In e2 (outs (nst (lg g) a)) -> etgt e1 = etgt e2 ->
     ddis (ledge g (eid e1)) = ddis (ledge g (eid e2))) ->
  exists es r, reportPath cval g diags live p = ROk r /\ (forall e, In e es -> ddis (ledge g (eid e)) = false) /\
    match r with
    | RepText t => Along cval g (NodeNote cval g) (EdgeNote cval g) p es t
    | RepDiag l => Along cval g (NodeDiag cval) (EdgeDiag cval g) p es l
    end.
Proof.
  intros cval g p diags live M D F P O Par. destruct (produced_walk cval g M p D P) as [W N].
  destruct (report_ok cval g F p W (proj1 P) N diags live O) as (es & r & E & Fs & A).
  exists es, r. split; [exact E|]. split; [|exact A].
  clear - W Fs Par. revert es W Fs. induction p as [|a p IH]; intros es W Fs e I.
  - destruct es; [destruct I|destruct Fs].
  - destruct p as [|b p]; [destruct es; [destruct I|destruct Fs]|].
    destruct es as [|e0 es]; [destruct I|]. destruct Fs as [F0 Fs]. destruct W as [(e1 & I1 & T1 & D1) W].
    destruct I as [<-|I]; [|eapply IH; eauto].
    apply find_some in F0. destruct F0 as [I0 T0]. apply Nat.eqb_eq in T0.
    rewrite (Par a e0 e1); auto. congruence.
Qed.
Print Assumptions c83_enabled_values_partial.
(** In general the first edge between the nodes is reported, which may be a disabled one: the
    report claims the value t.x[3:0], the path uses t.x[7:4]. *)
Theorem c83_enabled_values_refuted : ~ (forall cval (g : nlg cval) p diags live, Mirror (lg g) ->
  DistinctIDs (nl_of cval g) -> FilesKnown cval g -> Produced cval g p ->
  (forall n, In n p -> ~ OddPort cval (lnode g n)) ->
  exists es r, reportPath cval g diags live p = ROk r /\ (forall e, In e es -> ddis (ledge g (eid e)) = false) /\
    match r with
    | RepText t => Along cval g (NodeNote cval g) (EdgeNote cval g) p es t
    | RepDiag l => Along cval g (NodeDiag cval) (EdgeDiag cval g) p es l
    end).
Proof.
  intros H. destruct (H str (rg DIn true) [0; 1; 2] true (fun _ => true) (rg_mirror _ _) (rg_ids _ _) (rg_files _ _) (rg_produced _ _))
    as (es & r & E & Dis & A).
  - intros n Hn. destruct Hn as [<-|[<-|[<-|[]]]]; cbn; intros (? & ? & ? & ? & ? & E & H1 & H2); try discriminate;
      injection E as <- <- <- <- <-; auto.
  - vm_compute in E. injection E as <-.
    inversion A as [|a b l e es' ta te tr Na Ie Te Ne A1 Ea Eb Ec]; subst.
    assert (X : e = Edge 1 0 1).
    { cbn in Ie. destruct Ie as [<-|[<-|[]]]; auto. specialize (Dis _ (or_introl eq_refl)). discriminate. }
    subst e. inversion Na; subst. injection Ec as Ec.
    inversion Ne as [s C|C]; subst.
    + destruct C as (i & C1 & C2 & _). cbn in C1. injection C1 as <-. cbn in C2. injection C2 as <-.
      vm_compute in Ec. discriminate.
    + apply (C (Sym (lit "x") (lit "t.x") (rl 1))). exists 0. repeat split; discriminate.
Qed.
Print Assumptions c83_enabled_values_refuted.
