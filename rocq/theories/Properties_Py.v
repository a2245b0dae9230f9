(** C101-C109: the analyses in examples/ and paths from Python. *)
From Coq Require Import Ascii String Sorted.
From Verif Require Import Base M_Graph S_Graph P_Graph S_Reach M_Range M_Netlist S_Netlist M_Text M_Serial M_Path P_Path M_Query M_Report M_Py
  S_Query S_Cli S_Py P_Py2 P_Py3.
Notation length := List.length.

(** ** C101. The constant-driven sinks are exactly the variables and output ports that have
    a constant behind them and no undriven port; each with the values of these constants. *)
Theorem c101_sinks : forall cval ctext (g : nlg cval), WF (nl_of cval g) -> exists res,
  find_constant_driven_sinks cval ctext g = Some res /\
  StronglySorted TextLt (map fst res) /\
  (forall p, In p (map fst res) <-> exists n c x, Sink cval g n p /\ Tied cval ctext g n c x) /\
  (forall p vs, In (p, vs) res -> StronglySorted TextLt vs /\
     forall x, In x vs <-> exists n c, Sink cval g n p /\ Tied cval ctext g n c x).
Proof. exact sinks_spec. Qed.
Print Assumptions c101_sinks.

(** Two slices of an output y, one tied and one from the input a; an output z of a register
    and a constant; an output u of two constants. *)
Definition pl : loc := Loc 0 1 1.
Definition bit (i : Z) : range := Range i i.
Definition pgraph (nodes : list (ndata str)) (es : list (nat * nat)) (att : list edata) : nlg str :=
  NL [lit "a.sv"] [] (mk_graph (length nodes) es) (fun n => nth n nodes DNone) (fun n => Z.of_nat (S n)) (fun e => nth e att edge0) [].
Lemma pgraph_WF nodes es att : WF (nl_of str (pgraph nodes es att)).
Proof. apply c01 with (thr := outEdgeIndexThreshold), mk_graph_reachable. Qed.
Definition tied_g : nlg str :=
  pgraph [DConstant (lit "1'b0") 1 pl; DAssignment pl; DPort (lit "y") (lit "t.y") pl DOut (bit 0);
          DPort (lit "a") (lit "t.a") pl DIn (bit 0); DAssignment pl; DPort (lit "y") (lit "t.y") pl DOut (bit 1);
          DState (lit "q") (lit "t.q") pl (bit 0); DAssignment pl; DPort (lit "z") (lit "t.z") pl DOut (bit 0);
          DConstant (lit "1'b1") 1 pl; DAssignment pl; DPort (lit "u") (lit "t.u") pl DOut (bit 0)]
         [(0, 1); (1, 2); (3, 4); (4, 5); (6, 7); (0, 7); (7, 8); (3, 6); (9, 10); (0, 10); (10, 11)] [].
Definition sinks_of (g : nlg str) := find_constant_driven_sinks str (fun s => s) g.
Example c101_example : WF (nl_of str tied_g) /\
  sinks_of tied_g = Some [(lit "t.u", [lit "1'b0"; lit "1'b1"]); (lit "t.y", [lit "1'b0"]); (lit "t.z", [lit "1'b0"])].
Proof. split; [apply pgraph_WF|vm_compute; reflexivity]. Qed.

(** ** C102. A listed sink is fed by constants only.  False for two reasons. *)
Definition Behind (nl : netlist) (n m : nat) : Prop := Reach (fun a b => Conn nl b a) n m.
Definition only_constants {cval} (g : nlg cval) (n : nat) : Prop :=
  forall m, Behind (nl_of cval g) n m -> m <> n -> ins (nst (lg g) m) = [] -> exists v w l, lnode g m = DConstant v w l.
(** A vector with one tied slice is listed. *)
Theorem c102_slices_refuted : ~ (forall cval ctext (g : nlg cval) res p n, WF (nl_of cval g) ->
  find_constant_driven_sinks cval ctext g = Some res -> In p (map fst res) -> Sink cval g n p -> only_constants g n).
Proof.
  intros H. specialize (H str (fun s => s) tied_g [(lit "t.u", [lit "1'b0"; lit "1'b1"]); (lit "t.y", [lit "1'b0"]); (lit "t.z", [lit "1'b0"])] (lit "t.y") 5 (pgraph_WF _ _ _)).
  destruct (H ltac:(vm_compute; reflexivity) ltac:(cbn; tauto)) with (m := 3) as (v & w & l & E).
  - split; [vm_compute; tauto|]. right. eexists _, _, _. reflexivity.
  - apply reach_step with 4; [apply reach_step with 5; [apply reach_refl|]|]; apply conn_b; vm_compute; reflexivity.
  - discriminate.
  - reflexivity.
  - discriminate E.
Qed.
Print Assumptions c102_slices_refuted.
(** So is a sink of a single node that depends on a register. *)
Theorem c102_register_refuted : ~ (forall cval ctext (g : nlg cval) res p n, WF (nl_of cval g) ->
  find_constant_driven_sinks cval ctext g = Some res -> In p (map fst res) -> Sink cval g n p ->
  (forall m, Named cval g m p -> m = n) -> only_constants g n).
Proof.
  intros H. specialize (H str (fun s => s) tied_g [(lit "t.u", [lit "1'b0"; lit "1'b1"]); (lit "t.y", [lit "1'b0"]); (lit "t.z", [lit "1'b0"])] (lit "t.z") 8 (pgraph_WF _ _ _)).
  destruct (H ltac:(vm_compute; reflexivity) ltac:(cbn; tauto)) with (m := 3) as (v & w & l & E).
  - split; [vm_compute; tauto|]. right. eexists _, _, _. reflexivity.
  - intros m [I N]. vm_compute in I. repeat (destruct I as [<-|I]); try destruct I; vm_compute in N; try discriminate N; try contradiction; reflexivity.
  - apply reach_step with 6; [apply reach_step with 7; [apply reach_step with 8; [apply reach_refl|]|]|]; apply conn_b; vm_compute; reflexivity.
  - discriminate.
  - reflexivity.
  - discriminate E.
Qed.
Print Assumptions c102_register_refuted.
(** For a sink of a single node with no register behind it, the end points of the fan-in that
    are ports or constants are constants. *)
Theorem c102_single_partial : forall cval ctext (g : nlg cval) res p n, WF (nl_of cval g) ->
  find_constant_driven_sinks cval ctext g = Some res -> In p (map fst res) -> Sink cval g n p ->
  (forall m, Sink cval g m p -> m = n) ->
  (forall m, Behind (nl_of cval g) n m -> nkind (ninf (nl_of cval g) m) <> KState) ->
  forall m, Behind (nl_of cval g) n m -> m <> n -> ins (nst (lg g) m) = [] -> nkind (ninf (nl_of cval g) m) <> KPort.
Proof.
  intros cval ctext g res p n W E I Sn U Ns m B Ne Nil Kp. destruct (c101_sinks cval ctext g W) as (r & E' & _ & H & _).
  rewrite E in E'. injection E' as <-. apply H in I. destruct I as (n' & c & x & S' & T). apply U in S'. subst n'.
  destruct T as (NS & _). apply NS. exists m. split; [exact Ne|]. split; [|auto].
  revert B. clear - Ns. unfold Behind. intros B. assert (Q : forall k, Reach (fun a b => Conn (nl_of cval g) b a) n k -> Reach (CombBack (nl_of cval g)) n k).
  { intros k R. induction R as [|a b R IH C]; [apply reach_refl|]. eapply reach_step; [exact IH|]. split; [exact C|].
    apply Ns. eapply reach_step; eauto. }
  now apply Q.
Qed.
Print Assumptions c102_single_partial.
Lemma tied_WF : WF (nl_of str tied_g).
Proof. apply pgraph_WF. Qed.
Lemma behind_in nl n l : WF nl -> In n l -> forallb (fun a => forallb (fun e => existsb (Nat.eqb (esrc e)) l) (ins (nst (ng nl) a))) l = true ->
  forall m, Behind nl n m -> In m l.
Proof.
  intros W I H m R. induction R as [|a b R IH C]; [exact I|]. destruct C as (e & Ie & <- & _).
  destruct (mir_out _ W _ _ Ie) as (<- & _ & _ & Ii). rewrite forallb_forall in H. specialize (H _ IH). rewrite forallb_forall in H.
  specialize (H _ Ii). apply existsb_exists in H. destruct H as (x & Ix & E). apply Nat.eqb_eq in E. now rewrite E.
Qed.
Example c102_nonvacuous : In (lit "t.u") (map fst (match sinks_of tied_g with Some r => r | None => [] end)) /\
  (forall m, Sink str tied_g m (lit "t.u") -> m = 11) /\
  (forall m, Behind (nl_of str tied_g) 11 m -> nkind (ninf (nl_of str tied_g) m) <> KState).
Proof.
  split; [vm_compute; tauto|]. split.
  - intros m [I N]. vm_compute in I. repeat (destruct I as [<-|I]); try destruct I; cbn in N; destruct N as [(a & l & b & N)|(a & l & b & N)]; try discriminate N; reflexivity.
  - intros m R. apply (behind_in _ 11 [11; 10; 9; 0] tied_WF) in R; [|cbn; tauto|vm_compute; reflexivity].
    cbn [In] in R. destruct R as [<-|[<-|[<-|[<-|[]]]]]; vm_compute; discriminate.
Qed.

(** ** C103. The clock-domain map lists a register under (clock, edge) exactly if it has such
    an event, and under (<unclocked>, None) exactly if it has none. *)
Theorem c103_domains : forall cval (g : nlg cval), WF (nl_of cval g) -> exists d,
  clock_domain_map cval g = Some d /\ NoDup (map fst d) /\
  (forall c e, In (c, e) (map fst d) <-> exists n p, Reg cval g n p /\ InDomain cval g n c e) /\
  (forall c e l, In (c, e, l) d -> forall p, In p l <-> exists n, Reg cval g n p /\ InDomain cval g n c e).
Proof. exact domains_spec. Qed.
Print Assumptions c103_domains.
Theorem c103_rows : forall d : list (str * str * list str), NoDup (map fst d) ->
  StronglySorted DomainLt (map (fun r => fst (fst r)) (domain_rows d)) /\
  (forall c e, In (c, e) (map (fun r => fst (fst r)) (domain_rows d)) <-> In (c, e) (map fst d)) /\
  (forall c e k l, In (c, e, k, l) (domain_rows d) -> StronglySorted TextLt l /\ k = length l /\
     exists l', In (c, e, l') d /\ forall p, In p l <-> In p l').
Proof. exact rows_spec. Qed.
Print Assumptions c103_rows.
(** A clock vector of two bits with a register each, a register with both edges of a
    generated clock without a name, and a latch. *)
Definition clock_g : nlg str :=
  pgraph [DPort (lit "clk") (lit "t.clk") pl DIn (bit 0); DPort (lit "clk") (lit "t.clk") pl DIn (bit 1);
          DState (lit "q") (lit "t.q") pl (bit 0); DState (lit "r") (lit "t.r") pl (bit 0);
          DAssignment pl; DState (lit "g") (lit "t.g") pl (bit 0); DState (lit "l") (lit "t.l") pl (bit 0); DState (lit "l") (lit "t.l") pl (bit 1)]
         [(0, 2); (1, 3); (4, 5)]
         [ED EKPos None (bit 0) false; ED EKPos None (bit 1) false; ED EKBoth None (bit 0) false].
Example c103_example : WF (nl_of str clock_g) /\ exists d, clock_domain_map str clock_g = Some d /\
  domain_rows d = [(lit "<Assignment#5>", lit "BothEdges", 1, [lit "t.g"]); (lit "t.clk", lit "PosEdge", 2, [lit "t.q"; lit "t.r"]);
                   (lit "<unclocked>", lit "None", 1, [lit "t.l"])].
Proof. split; [apply pgraph_WF|]. eexists. split; vm_compute; reflexivity. Qed.

(** ** C104. Registers of one row have a clock in common.  False for a clock vector. *)
Theorem c104_shared_refuted : ~ (forall cval (g : nlg cval) d c e l p p', WF (nl_of cval g) -> clock_domain_map cval g = Some d ->
  In (c, e, l) d -> c <> lit "<unclocked>" -> In p l -> In p' l ->
  exists n n' s k, Reg cval g n p /\ Reg cval g n' p' /\ Clocks (nl_of cval g) n s k /\ Clocks (nl_of cval g) n' s k).
Proof.
  intros H. destruct (clock_domain_map str clock_g) as [d|] eqn:E; [|vm_compute in E; discriminate].
  assert (D : In (lit "t.clk", lit "PosEdge", [lit "t.q"; lit "t.r"]) d).
  { vm_compute in E. injection E as <-. left. reflexivity. }
  destruct (H str clock_g d _ _ _ (lit "t.q") (lit "t.r") (pgraph_WF _ _ _) E D) as (n & n' & s & k & [I R] & [I' R'] & C & C');
    [discriminate|cbn; tauto|cbn; tauto|]. clear - I R I' R' C C'.
  destruct R as (a & l & b & R). destruct R' as (a' & l' & b' & R').
  destruct C as (e & Ie & Es & _). destruct C' as (e' & Ie' & Es' & _).
  vm_compute in I, I'. repeat (destruct I as [<-|I]); try destruct I; try discriminate R.
  repeat (destruct I' as [<-|I']); try destruct I'; try discriminate R'.
  vm_compute in Ie, Ie'. destruct Ie as [<-|[]]. destruct Ie' as [<-|[]]. cbn in Es, Es'. congruence.
Qed.
Print Assumptions c104_shared_refuted.
(** True if clock sources have distinct paths. *)
Theorem c104_shared_partial : forall cval (g : nlg cval) d c e l p p', WF (nl_of cval g) -> clock_domain_map cval g = Some d ->
  (forall r s k r' s' k' q, Clocks (nl_of cval g) r s k -> Clocks (nl_of cval g) r' s' k' -> ClockText cval g s q -> ClockText cval g s' q -> s = s') ->
  In (c, e, l) d -> c <> lit "<unclocked>" -> In p l -> In p' l ->
  exists n n' s k, Reg cval g n p /\ Reg cval g n' p' /\ Clocks (nl_of cval g) n s k /\ Clocks (nl_of cval g) n' s k.
Proof.
  intros cval g d c e l p p' W E U I Nc Ip Ip'. destruct (c103_domains cval g W) as (d' & E' & _ & _ & H). rewrite E in E'. injection E' as <-.
  apply (H _ _ _ I) in Ip. apply (H _ _ _ I) in Ip'. destruct Ip as (n & R & [(s & k & C & Ct & Et)|(_ & -> & _)]); [|congruence].
  destruct Ip' as (n' & R' & [(s' & k' & C' & Ct' & Et')|(_ & -> & _)]); [|congruence].
  assert (s = s') by (eapply U; eauto). subst s'. assert (k = k') by (destruct Et; inversion Et'; reflexivity). subst k'.
  exists n, n', s, k. auto.
Qed.
Print Assumptions c104_shared_partial.

(** ** C105. The undriven ranges of an input hold exactly the bits of its nodes without a
    driver, in ascending order and never adjacent. *)
Theorem c105_ranges : forall cval (g : nlg cval) top,
  let res := find_undriven_bit_ranges cval g top in
  StronglySorted TextLt (map fst res) /\
  (forall p, In p (map fst res) <-> exists n b, Undriven cval g top n p b) /\
  (forall p rs, In (p, rs) res -> Spaced rs /\ rs <> [] /\ forall i, Holds rs i <-> exists n b, Undriven cval g top n p b /\ InRange i b).
Proof. exact undriven_spec. Qed.
Print Assumptions c105_ranges.
Theorem c105_nodes : forall cval (g : nlg cval) top n,
  In n (find_unconnected_inputs cval g top) <-> exists p b, Undriven cval g top n p b.
Proof.
  intros cval g top n. unfold find_unconnected_inputs. rewrite filter_In. split.
  - intros [I H]. destruct (undriven_input cval g top n) as [[p b]|] eqn:E; [|discriminate]. exists p, b. now apply undriven_iff.
  - intros (p & b & U). assert (I : In n (gnodes (lg g))) by apply U. split; [exact I|].
    now rewrite (proj2 (undriven_iff cval g top n p b I) U).
Qed.
Print Assumptions c105_nodes.
(** An input of the top and four slices of an input of an instance, one of them driven; a
    slice of another that is driven on some bits. *)
Definition input_g : nlg str :=
  pgraph [DPort (lit "a") (lit "t.a") pl DIn (Range 3 0); DPort (lit "i") (lit "t.u.i") pl DIn (Range 7 6);
          DPort (lit "i") (lit "t.u.i") pl DIn (Range 3 2); DPort (lit "i") (lit "t.u.i") pl DIn (Range 1 0);
          DPort (lit "i") (lit "t.u.i") pl DIn (Range 5 4); DPort (lit "j") (lit "t.u.j") pl DIn (Range 7 0)]
         [(0, 4); (0, 5)] [ED EKNone None (Range 1 0) false; ED EKNone None (Range 3 0) false].
Example c105_example : find_undriven_bit_ranges str input_g (lit "t") = [(lit "t.u.i", [(0, 3)%Z; (6, 7)%Z])] /\
  find_unconnected_inputs str input_g (lit "t") = [1; 2; 3].
Proof. vm_compute. split; reflexivity. Qed.

(** ** C106. Every bit of an instance input that no edge covers is listed.  False for a node
    that is driven on some of its bits. *)
Definition NoEdge {cval} (g : nlg cval) (n : nat) (i : Z) : Prop :=
  forall e, In e (ins (nst (lg g) n)) -> ~ InRange i (dbounds (ledge g (eid e))).
Theorem c106_every_bit_refuted : ~ (forall cval (g : nlg cval) top n a p l b i, WF (nl_of cval g) ->
  In n (gnodes (lg g)) -> lnode g n = DPort a p l DIn b -> ~ TopPort top p -> InRange i b -> NoEdge g n i ->
  exists rs, In (p, rs) (find_undriven_bit_ranges cval g top) /\ Holds rs i).
Proof.
  intros H. destruct (H str input_g (lit "t") 5 (lit "j") (lit "t.u.j") pl (Range 7 0) 4%Z (pgraph_WF _ _ _)) as (rs & I & _).
  - vm_compute. tauto.
  - reflexivity.
  - intros (r & E & N). injection E as <-. apply N. cbn. tauto.
  - unfold InRange; cbn; lia.
  - intros e I. vm_compute in I. destruct I as [<-|[]]. unfold InRange; cbn; lia.
  - vm_compute in I. destruct I as [E|[]]. discriminate E.
Qed.
Print Assumptions c106_every_bit_refuted.
(** True if an edge into the node covers it all. *)
Theorem c106_every_bit_partial : forall cval (g : nlg cval) top n a p l b i, WF (nl_of cval g) ->
  In n (gnodes (lg g)) -> lnode g n = DPort a p l DIn b -> ~ TopPort top p -> InRange i b -> NoEdge g n i ->
  (forall e j, In e (ins (nst (lg g) n)) -> InRange j b -> InRange j (dbounds (ledge g (eid e)))) ->
  exists rs, In (p, rs) (find_undriven_bit_ranges cval g top) /\ Holds rs i.
Proof.
  intros cval g top n a p l b i W I E T Ib N Cv. assert (Nil : ins (nst (lg g) n) = []).
  { destruct (ins (nst (lg g) n)) as [|e r] eqn:Ei; [reflexivity|]. exfalso. apply (N e); [rewrite Ei; now left|]. apply Cv; [now left|exact Ib]. }
  assert (U : Undriven cval g top n p b) by (split; [exact I|]; split; [eauto|]; split; assumption).
  destruct (c105_ranges cval g top) as (_ & K & V). assert (J : In p (map fst (find_undriven_bit_ranges cval g top))) by (apply K; eauto).
  apply in_map_iff in J. destruct J as ([q rs] & [= ->] & J). exists rs. split; [exact J|]. apply (V _ _ J). eauto.
Qed.
Print Assumptions c106_every_bit_partial.
Example c106_nonvacuous : In 1 (gnodes (lg input_g)) /\ ~ TopPort (lit "t") (lit "t.u.i") /\ InRange 6 (Range 7 6) /\ NoEdge input_g 1 6 /\
  forall e j, In e (ins (nst (lg input_g) 1)) -> InRange j (Range 7 6) -> InRange j (dbounds (ledge input_g (eid e))).
Proof.
  split; [vm_compute; tauto|]. split; [intros (r & E & N); injection E as <-; apply N; cbn; tauto|]. split; [unfold InRange; cbn; lia|].
  split; [intros e []|intros e j []].
Qed.

(** ** C107. A row of driver_lookup lists the texts of the drivers of the bits, each once. *)
Theorem c107_row : forall cval (g : nlg cval), WF (nl_of cval g) -> forall s lo hi, exists l t, driver_row cval g s lo hi = (l, t) /\ BitLabel s lo hi l /\
  ((t = lit "(no drivers)" /\ forall d b, InRange b (Range lo hi) -> ~ DrivesBit (nl_of cval g) s d b) \/
   exists ts, Joined (lit ", ") ts t /\ StronglySorted TextLt ts /\
     forall x, In x ts <-> exists d b, InRange b (Range lo hi) /\ DrivesBit (nl_of cval g) s d b /\ Tag cval g d x).
Proof. exact driver_row_spec. Qed.
Print Assumptions c107_row.
Definition driven_g : nlg str :=
  NL [lit "a.sv"] [] (mk_graph 4 [(0, 3); (1, 3); (2, 3)])
     (fun n => nth n [DAssignment pl; DPort (lit "a") (lit "t.a") pl DIn (bit 0); DState (lit "q") [] pl (bit 0); DPort (lit "y") (lit "t.y") pl DOut (Range 2 0)] DNone)
     (fun n => Z.of_nat (S n))
     (fun e => nth e [ED EKNone (Some 0) (bit 0) false; ED EKNone (Some 0) (bit 1) false; ED EKNone (Some 0) (bit 1) false] edge0)
     [Sym (lit "y") (lit "t.y") pl].
Example c107_example : WF (nl_of str driven_g) /\
  driver_row str driven_g (lit "t.y") 0 0 = (lit "t.y[0]", lit "Assignment#1") /\
  driver_row str driven_g (lit "t.y") 0 1 = (lit "t.y[1:0]", lit "Assignment#1, Port(t.a), State(q)") /\
  driver_row str driven_g (lit "t.y") 2 2 = (lit "t.y[2]", lit "(no drivers)").
Proof. split; [apply c01 with (thr := outEdgeIndexThreshold), mk_graph_reachable|vm_compute; repeat split]. Qed.

(** ** C108. path_exists of two names tells if a node of the one reaches a node of the other. *)
Definition reaches {cval} (g : nlg cval) (a b : str) : Prop :=
  exists n m, Named cval g n a /\ Named cval g m b /\ Reach1 (Conn (nl_of cval g)) n m.
(** False if the first node of the name is not the one with the path. *)
Definition two_g : nlg str :=
  pgraph [DPort (lit "a") (lit "t.a") pl DIn (bit 0); DPort (lit "a") (lit "t.a") pl DIn (bit 1); DAssignment pl;
          DPort (lit "y") (lit "t.y") pl DOut (bit 0); DVariable (lit "w") (lit "t.w") pl (bit 0)]
         [(1, 2); (2, 3); (4, 4)] [].
Theorem c108_names_refuted : ~ (forall cval (g : nlg cval) a b r, WF (nl_of cval g) -> path_exists cval g a b = PyOk _ r ->
  a <> b -> reaches g a b -> r = true).
Proof.
  intros H. assert (E := H str two_g (lit "t.a") (lit "t.y") false (pgraph_WF _ _ _)). discriminate E.
  - vm_compute. reflexivity.
  - discriminate.
  - exists 1, 3. split; [split; [vm_compute; tauto|reflexivity]|]. split; [split; [vm_compute; tauto|reflexivity]|].
    exists 2. split; [|apply reach_one]; apply conn_b; vm_compute; reflexivity.
Qed.
Print Assumptions c108_names_refuted.
(** False for a signal that feeds itself. *)
Theorem c108_self_refuted : ~ (forall cval (g : nlg cval) a b r, WF (nl_of cval g) -> path_exists cval g a b = PyOk _ r ->
  (forall n m, Named cval g n a -> Named cval g m a -> n = m) -> reaches g a b -> r = true).
Proof.
  intros H. assert (E := H str two_g (lit "t.w") (lit "t.w") false (pgraph_WF _ _ _)). discriminate E.
  - vm_compute. reflexivity.
  - intros n m [I N] [J M]. vm_compute in I, J. repeat (destruct I as [<-|I]); try destruct I; vm_compute in N; try discriminate N; try contradiction.
    repeat (destruct J as [<-|J]); try destruct J; vm_compute in M; try discriminate M; try contradiction. reflexivity.
  - exists 4, 4. split; [split; [vm_compute; tauto|reflexivity]|]. split; [split; [vm_compute; tauto|reflexivity]|].
    exists 4. split; [|apply reach_refl]; apply conn_b; vm_compute; reflexivity.
Qed.
Print Assumptions c108_self_refuted.
(** What it answers: for the first node of each name, and false for the same node. *)
Theorem c108_first_partial : forall cval (g : nlg cval), WF (nl_of cval g) -> forall a b,
  (path_exists cval g a b = PyValueError _ (lit "Node not found: " ++ a) /\ forall n, ~ Named cval g n a) \/
  (path_exists cval g a b = PyValueError _ (lit "Node not found: " ++ b) /\ (exists n, Named cval g n a) /\ forall n, ~ Named cval g n b) \/
  exists s e r, First cval g a s /\ First cval g b e /\ path_exists cval g a b = PyOk _ r /\ (r = true <-> s <> e /\ Reach1 (Conn (nl_of cval g)) s e).
Proof. exact path_exists_spec. Qed.
Print Assumptions c108_first_partial.
(** So true is always right. *)
Theorem c108_true_sound : forall cval (g : nlg cval) a b, WF (nl_of cval g) -> path_exists cval g a b = PyOk _ true -> reaches g a b.
Proof.
  intros cval g a b W E. destruct (c108_first_partial cval g W a b) as [[E' _]|[[E' _]|(s & e & r & (l1 & l2 & _ & Na & _) & (l3 & l4 & _ & Nb & _) & E' & H)]];
    rewrite E in E'; try discriminate. injection E' as <-. exists s, e. split; [exact Na|]. split; [exact Nb|]. now apply H.
Qed.
Print Assumptions c108_true_sound.
Example c108_examples : path_exists str tied_g (lit "t.a") (lit "t.y") = PyOk _ false /\ path_exists str tied_g (lit "t.a") (lit "t.z") = PyOk _ true /\
  path_exists str tied_g (lit "t.x") (lit "t.y") = PyValueError _ (lit "Node not found: t.x") /\
  path_exists str tied_g (lit "t.a") (lit "t.b") = PyValueError _ (lit "Node not found: t.b").
Proof. vm_compute. repeat split. Qed.

(** ** C109. Access to a path.  The first node of a path found from Python is the source.
    False if there is none: the access is undefined. *)
Theorem c109_front_refuted : ~ (forall nl s e p, WF nl -> In s (gnodes (ng nl)) -> In e (gnodes (ng nl)) -> pf_find nl s e = PPath p ->
  np_front p = ANode s).
Proof.
  intros H. assert (E : np_front [] = ANode 0). 2:discriminate E.
  apply (H (nl_of str two_g) 0 3 [] (pgraph_WF _ _ _)); vm_compute; tauto.
Qed.
Print Assumptions c109_front_refuted.
Theorem c109_ends_partial : forall nl s e p, WF nl -> In s (gnodes (ng nl)) -> In e (gnodes (ng nl)) -> pf_find nl s e = PPath p ->
  (np_empty p = true /\ np_len p = 0 /\ np_front p = AUndef /\ np_back p = AUndef) \/
  (np_empty p = false /\ np_front p = ANode s /\ np_back p = ANode e /\ np_getitem p 0 = ANode s /\ np_getitem p (np_len p - 1) = ANode e).
Proof.
  intros nl s e p W Is Ie E. destruct (c11 nl s e W Is Ie) as (p' & E' & H). rewrite E in E'. injection E' as <-.
  destruct p as [|x p]; [left; repeat split|]. right. destruct H as (Hh & Hl & _); [discriminate|]. injection Hh as ->.
  destruct (ends_spec (s :: p)) as (_ & _ & F & B). assert (Bk : np_back (s :: p) = ANode e).
  { unfold np_back. f_equal. destruct p; exact Hl. }
  split; [reflexivity|]. split; [reflexivity|]. split; [exact Bk|]. split; [reflexivity|]. apply B in Bk. destruct Bk as (r & ->).
  unfold np_getitem, np_len. rewrite app_length. cbn [length]. rewrite Nat.add_sub, nth_error_app2, Nat.sub_diag; [reflexivity|lia].
Qed.
Print Assumptions c109_ends_partial.
(** When an access is defined, and what it gives. *)
Theorem c109_access : forall p,
  (forall i n, np_getitem p i = ANode n <-> nth_error (np_iter p) i = Some n) /\ (forall i, np_getitem p i = AUndef <-> np_len p <= i) /\
  (np_front p = AUndef <-> np_empty p = true) /\ (np_back p = AUndef <-> np_empty p = true) /\
  (forall n, np_front p = ANode n <-> exists r, np_iter p = n :: r) /\ (forall n, np_back p = ANode n <-> exists r, np_iter p = r ++ [n]) /\
  np_len p = length (np_iter p).
Proof.
  intros p. destruct (ends_spec p) as (A & B & C & D).
  assert (Em : p = [] <-> np_empty p = true) by (destruct p; cbn; split; congruence). rewrite <- Em.
  split; [intros; apply getitem_spec|]. split; [intros; apply getitem_spec|]. repeat (split; [assumption|]). reflexivity.
Qed.
Print Assumptions c109_access.
(** Adding and reversing. *)
Theorem c109_edit : forall p n,
  np_back (np_add p n) = ANode n /\ np_len (np_add p n) = S (np_len p) /\ (forall i, i < np_len p -> np_getitem (np_add p n) i = np_getitem p i) /\
  np_front (np_reverse p) = np_back p /\ np_back (np_reverse p) = np_front p /\ np_len (np_reverse p) = np_len p /\
  (forall i, i < np_len p -> np_getitem (np_reverse p) i = np_getitem p (np_len p - S i)).
Proof.
  intros p n. assert (Bk : forall q m, np_back (q ++ [m]) = ANode m) by (intros q m; apply ends_spec; eauto).
  unfold np_add, np_reverse, np_len. split; [apply Bk|]. split; [rewrite app_length; cbn; lia|]. split; [|split; [|split; [|split]]].
  - intros i L. unfold np_getitem. now rewrite nth_error_app1.
  - destruct p as [|x p]; [reflexivity|]. destruct (@exists_last _ (x :: p)) as (r & y & ->); [discriminate|]. rewrite rev_unit, Bk. reflexivity.
  - destruct p as [|x p]; [reflexivity|]. cbn [rev]. rewrite Bk. reflexivity.
  - apply rev_length.
  - intros i L. unfold np_getitem. f_equal. revert i L. induction p as [|x p IH]; intros i L; [cbn in L; lia|]. cbn [rev length] in *.
    destruct (Nat.eq_dec i (length p)) as [->|Ne].
    + rewrite nth_error_app2; rewrite rev_length; [|lia]. now rewrite !Nat.sub_diag.
    + rewrite nth_error_app1 by (rewrite rev_length; lia). rewrite IH by lia. replace (S (length p) - S i) with (S (length p - S i)) by lia. reflexivity.
Qed.
Print Assumptions c109_edit.
Example c109_example : pf_find (nl_of str two_g) 1 3 = PPath [1; 2; 3] /\ np_front [1; 2; 3] = ANode 1 /\ np_back [1; 2; 3] = ANode 3 /\
  np_getitem [1; 2; 3] 3 = AUndef /\ pf_find (nl_of str two_g) 0 3 = PPath [].
Proof. vm_compute. repeat split. Qed.
