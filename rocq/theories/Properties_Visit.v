(** C142: what is visited before the compilation is frozen. *)
From Coq Require Import Ascii String.
From Verif Require Import Base M_Graph M_Range M_Netlist M_Text M_Interval M_Slice M_Port M_Inst M_Visit S_Visit P_Visit.

(** Every expression that the analysis of a deferred block asks for, and every connection
    that the builder handles, has been visited; whatever is black-boxed. *)
Theorem c142_visited : forall {V} body pats prop own (tops : list (@sym V)) evs, traverse pats prop own tops = Some evs ->
  (forall i id pr e, In (VDefer i id pr) evs -> In e (asked false (body id)) -> In (FExpr id e) (flat_map (visit_all body) tops)) /\
  (forall i p o c, In (VConn i p o c) evs -> In (FConn i (CnPort p o c)) (flat_map (visit_all body) tops)).
Proof. exact @all_visited. Qed.
Print Assumptions c142_visited.

(** Exactly the design is visited: nothing in an uninstantiated instance. *)
Theorem c142_values : forall {V} body (tops : list (@sym V)) s,
  In (FVal s) (flat_map (visit_all body) tops) <-> exists ifc ds, in_design tops (YVar s ifc ds).
Proof.
  intros V body tops s. rewrite visited_iff. split.
  - intros (y & D & ifc & ds & ->). eauto.
  - intros (ifc & ds & D). eexists. split; [exact D|]. cbn. eauto.
Qed.
Print Assumptions c142_values.
Theorem c142_connections : forall {V} body (tops : list (@sym V)) i c,
  In (FConn i c) (flat_map (visit_all body) tops) <-> exists p d ms cs, in_design tops (YInst i p d false ms cs) /\ In c cs.
Proof.
  intros V body tops i c. rewrite visited_iff. split.
  - intros (y & D & p & d & ms & cs & -> & I). exists p, d, ms, cs. auto.
  - intros (p & d & ms & cs & D & I). eexists. split; [exact D|]. cbn. repeat eexists. exact I.
Qed.
Print Assumptions c142_connections.
Theorem c142_expressions : forall {V} body (tops : list (@sym V)) id e,
  In (FExpr id e) (flat_map (visit_all body) tops) <-> (exists pr, in_design tops (YBlock id pr)) /\ In e (visit_stm (body id)).
Proof.
  intros V body tops id e. rewrite visited_iff. split.
  - intros (y & D & (pr & ->) & I). eauto.
  - intros ((pr & D) & I). eexists. split; [exact D|]. cbn. eauto.
Qed.
Print Assumptions c142_expressions.

(** * A design *)
(** A top with a variable, a block with a local variable that has an initializer, and an
    instance; a module that is not instantiated. *)
Definition v_body (id : nat) : stm := match id with 0 => TList [TDecl false (Some 7); TExpr 8; TDecl true (Some 9)] | _ => TExpr 10 end.
Definition v_conn : @iconn bool := CnPort 4 false (Conn (Some 5) 1 true None).
Definition v_tops : list (@sym bool) :=
  [YInst 0 (lit "top") (lit "top") false
     [YVar 1 false []; YBlock 0 true; YGen true [YVar 2 false []]; YInst 1 (lit "top.u") (lit "m") false [YVar 3 false []; YBlock 1 false] [v_conn]] [];
   YInst 2 (lit "other") (lit "other") true [YVar 6 false []; YBlock 2 true] []].
Example v_visited : flat_map (visit_all v_body) v_tops = [FVal 1; FExpr 0 7; FExpr 0 8; FVal 2; FConn 1 v_conn; FVal 3; FExpr 1 10] /\ visit_count v_body v_tops = 3.
Proof. vm_compute. split; reflexivity. Qed.
Example v_deferred : match traverse [] false 9 v_tops with Some evs => In (VDefer 0 0 true) evs /\ In (VDefer 1 1 false) evs /\ In (VConn 1 4 false (Conn (Some 5) 1 true None)) evs | None => False end.
Proof. vm_compute. tauto. Qed.
Example v_asked : In (FExpr 0 7) (flat_map (visit_all v_body) v_tops).
Proof.
  assert (D := v_deferred). destruct (traverse [] false 9 v_tops) as [evs|] eqn:E; [|destruct D].
  exact (proj1 (c142_visited v_body [] false 9 v_tops evs E) 0 0 true 7 (proj1 D) (or_introl eq_refl)).
Qed.
(** An analysis that asks for the initializers of static variables finds them unvisited. *)
Theorem c142_static_refuted : ~ (forall body pats prop own (tops : list (@sym bool)) evs, traverse pats prop own tops = Some evs ->
  forall i id pr e, In (VDefer i id pr) evs -> In e (asked true (body id)) -> In (FExpr id e) (flat_map (visit_all body) tops)).
Proof.
  intros H. assert (D := v_deferred). destruct (traverse [] false 9 v_tops) as [evs|] eqn:E; [|destruct D].
  specialize (H v_body [] false 9 v_tops evs E 0 0 true 9 (proj1 D)). cbn in H. assert (Q := H (or_intror (or_intror (or_introl eq_refl)))).
  repeat (destruct Q as [Q|Q]; [discriminate Q|]). destruct Q.
Qed.
Print Assumptions c142_static_refuted.
