(** C17-C22: queries on the finished graph. *)
From Coq Require Import Ascii String Sorting.Sorted.
From Verif Require Import Base M_Graph S_Graph P_Graph S_Reach M_Range M_Netlist S_Netlist
  M_DFS P_DFS M_Path P_Path M_Query S_Query P_Query.
Local Open Scope Z_scope.
Notation length := List.length.

(** ** C17. Name lookup on a graph whose index has not been built yet. *)
Theorem c17_lookup_exact : forall q name b, qidx q = None ->
  (match snd (lookup q name) with
   | Some n => exists l1 l2, gnodes (ng (qnl q)) = l1 ++ n :: l2 /\
                 npath (ninf (qnl q) n) = Some name /\
                 forall m, In m l1 -> npath (ninf (qnl q) m) <> Some name
   | None => forall m, In m (gnodes (ng (qnl q))) -> npath (ninf (qnl q) m) <> Some name
   end) /\
  (exists f, snd (lookup_range q name b) = filter f (gnodes (ng (qnl q)))) /\
  (forall n, In n (snd (lookup_range q name b)) <->
    In n (gnodes (ng (qnl q))) /\ npath (ninf (qnl q) n) = Some name /\
    exists r x, nbounds (ninf (qnl q) n) = Some r /\ InRange x r /\ InRange x b).
Proof. exact c17. Qed.
Print Assumptions c17_lookup_exact.
Definition q_demo : qgraph :=
  QGraph (mk_netlist
    [NInfo 0 KVariable (Some (lit "m.a")) (Some (Range 3 0));
     NInfo 1 KMerge None None;
     NInfo 2 KVariable (Some (lit "m.a")) (Some (Range 4 7));
     NInfo 3 KPort (Some (lit "m.b")) (Some (Range 7 4))] []) None.
Example c17_nonvacuous :
  qidx q_demo = None /\ snd (lookup q_demo (lit "m.a")) = Some 0%nat /\
  snd (lookup_range q_demo (lit "m.a") (Range 9 3)) = [0%nat; 2%nat] /\
  snd (lookup_range q_demo (lit "m.a") (Range 6 6)) = [2%nat] /\
  snd (lookup q_demo (lit "m.c")) = None.
Proof. repeat split; vm_compute; reflexivity. Qed.

(** ** C18. The index is built once; later additions are not found and removed nodes
    are still returned. *)
Theorem c18_lookup_misses_added_refuted : ~ (forall os q rs name,
  q_run q_empty os = Some (q, rs) ->
  (exists n, In n (gnodes (ng (qnl q))) /\ npath (ninf (qnl q) n) = Some name) ->
  snd (lookup q name) <> None).
Proof.
  intros H.
  pose proof (H [QLookup (lit "a"); QAdd (NInfo 0 KVariable (Some (lit "a")) None)]) as K.
  eapply K with (name := lit "a"); [vm_compute; reflexivity| |vm_compute; reflexivity].
  exists 0%nat. split; vm_compute; auto.
Qed.
Print Assumptions c18_lookup_misses_added_refuted.
Theorem c18_lookup_returns_removed_refuted : ~ (forall os q rs name n,
  q_run q_empty os = Some (q, rs) -> snd (lookup q name) = Some n -> In n (gnodes (ng (qnl q)))).
Proof.
  intros H.
  pose proof (H [QAdd (NInfo 0 KVariable (Some (lit "a")) None); QLookup (lit "a"); QRemove 0]) as K.
  destruct (q_run _ _) as [[q rs]|] eqn:E; [|vm_compute in E; discriminate].
  specialize (K q rs (lit "a") 0%nat eq_refl). vm_compute in E. injection E as <- <-.
  vm_compute in K. exact (K eq_refl).
Qed.
Print Assumptions c18_lookup_returns_removed_refuted.
(** It is right as long as no node is added or removed after the first lookup. *)
Theorem c18_lookup_current_partial : forall os names q rs,
  Forall is_mut os -> q_run q_empty os = Some (q, rs) ->
  exists q' ans, q_run q (map QLookup names) = Some (q', ans) /\ qnl q' = qnl q /\
   Forall2 (fun name a => match a with
     | Some n => In n (gnodes (ng (qnl q))) /\ npath (ninf (qnl q) n) = Some name
     | None => forall m, In m (gnodes (ng (qnl q))) -> npath (ninf (qnl q) m) <> Some name
     end) names ans.
Proof. exact c18. Qed.
Print Assumptions c18_lookup_current_partial.
Example c18_nonvacuous : exists q rs q',
  q_run q_empty [QAdd (NInfo 0 KVariable (Some (lit "a")) None);
                 QAdd (NInfo 1 KVariable (Some (lit "b")) None); QRemove 0] = Some (q, rs) /\
  q_run q (map QLookup [lit "a"; lit "b"]) = Some (q', [None; Some 1%nat]).
Proof. eexists. eexists. eexists. split; vm_compute; reflexivity. Qed.

(** ** C19. Driver queries. [addr] is any assignment of distinct addresses to node
    objects. *)
Theorem c19_bit_drivers_exact : forall addr nl name q, WF nl ->
  (forall a b, addr a = addr b -> a = b) ->
  let res := getBitDrivers addr nl name q in
  (forall d b, (exists r, In (r, d) res /\ InRange b r) <-> DrivesBit nl name d b /\ InRange b q) /\
  (forall r d b, In (r, d) res -> InRange b r -> InRange b q) /\
  (forall r d, In (r, d) res -> exists b, InRange b r) /\
  StronglySorted (fun x y => lower (fst x) <= lower (fst y)) res /\
  NoDup res /\
  (forall d, In d (map snd res) <-> In d (getDrivers nl name q)).
Proof. exact c19. Qed.
Print Assumptions c19_bit_drivers_exact.
Theorem c19_drivers_exact : forall nl name q, WF nl ->
  NoDup (getDrivers nl name q) /\
  forall d, In d (getDrivers nl name q) <-> exists b, InRange b q /\ DrivesBit nl name d b.
Proof. exact getDrivers_spec. Qed.
Print Assumptions c19_drivers_exact.
Definition drv_demo : netlist :=
  mk_netlist [NInfo 0 KAssignment None None; NInfo 1 KAssignment None None; NInfo 2 KMerge None None]
    [((0, 2)%nat, EAttr EKNone (Some (lit "m.a")) (Range 7 4) false);
     ((1, 2)%nat, EAttr EKNone (Some (lit "m.a")) (Range 3 0) false);
     ((0, 1)%nat, EAttr EKNone (Some (lit "m.a")) (Range 7 4) true);
     ((0, 1)%nat, EAttr EKNone (Some (lit "m.b")) (Range 7 4) false)].
Example c19_nonvacuous : WF drv_demo /\
  getBitDrivers (fun n => n) drv_demo (lit "m.a") (Range 5 2) =
    [(Range 2 3, 1%nat); (Range 4 5, 0%nat)] /\
  getDrivers drv_demo (lit "m.a") (Range 5 2) = [0%nat; 1%nat].
Proof.
  split; [|split; vm_compute; reflexivity].
  apply mk_netlist_WF.
Qed.

(** ** C20. Sensitivity. *)
Theorem c20_sensitivity_exact : forall nl n, WF nl -> In n (gnodes (ng nl)) ->
  exists res, getSensitivity nl n = Some res /\ NoDup res /\
  (nkind (ninf nl n) = KState -> forall s k, In (s, k) res <-> Clocks nl n s k) /\
  (nkind (ninf nl n) <> KState -> forall s k, In (s, k) res <->
      exists u st, Reach (Comb nl) n u /\ Conn nl u st /\ nkind (ninf nl st) = KState /\ Clocks nl st s k).
Proof. exact c20. Qed.
Print Assumptions c20_sensitivity_exact.
(** data 0 -> logic 1 -> registers 2 and 3, clocks 4 and 5. *)
Definition sens_demo : netlist :=
  let k x d := EAttr x None (Range 0 0) d in
  mk_netlist [NInfo 0 KPort None None; NInfo 1 KAssignment None None; NInfo 2 KState None None;
              NInfo 3 KState None None; NInfo 4 KPort None None; NInfo 5 KPort None None]
    [((0, 1)%nat, k EKNone false); ((1, 2)%nat, k EKNone false); ((1, 3)%nat, k EKNone false);
     ((4, 2)%nat, k EKPos false); ((4, 3)%nat, k EKPos false); ((5, 3)%nat, k EKNeg false);
     ((5, 2)%nat, k EKPos true)].
Example c20_nonvacuous :
  getSensitivity sens_demo 0 = Some [(4%nat, EKPos); (5%nat, EKNeg)] /\
  getSensitivity sens_demo 2 = Some [(4%nat, EKPos)].
Proof. split; vm_compute; reflexivity. Qed.

(** ** C21. Constant drivers.  The exact behaviour: *)
Theorem c21_constant_drivers_partial : forall nl n, WF nl -> In n (gnodes (ng nl)) ->
  exists res, getConstantDrivers nl n = Some res /\ NoDup res /\
   ((exists m, m <> n /\ Reach (CombBack nl) n m /\ nkind (ninf nl m) = KPort /\
               ins (nst (ng nl) m) = []) -> res = []) /\
   ((~ exists m, m <> n /\ Reach (CombBack nl) n m /\ nkind (ninf nl m) = KPort /\
               ins (nst (ng nl) m) = []) ->
    forall c, In c res <-> c <> n /\ Reach (CombBack nl) n c /\ nkind (ninf nl c) = KConstant).
Proof. exact c21. Qed.
Print Assumptions c21_constant_drivers_partial.
(** The documented claim also excludes registers.  It is false: the fan-in cone
    never contains a register, so the test for one never fires. *)
Definition reg_and_const : netlist :=
  mk_netlist [NInfo 0 KState None None; NInfo 1 KConstant None None; NInfo 2 KAssignment None None]
    [((0, 2)%nat, EAttr EKNone None (Range 0 0) false); ((1, 2)%nat, EAttr EKNone None (Range 0 0) false)].
Lemma reg_and_const_WF : WF reg_and_const.
Proof.
  apply mk_netlist_WF.
Qed.
Theorem c21_register_ignored_refuted : ~ (forall nl n res, WF nl -> In n (gnodes (ng nl)) ->
  getConstantDrivers nl n = Some res -> res <> [] ->
  ~ exists st, nkind (ninf nl st) = KState /\ CombLink nl st n).
Proof.
  intros H. apply (H reg_and_const 2%nat [1%nat] reg_and_const_WF).
  - vm_compute. auto.
  - vm_compute. reflexivity.
  - discriminate.
  - exists 0%nat. split; [vm_compute; reflexivity|]. apply link_one, conn_b. vm_compute. reflexivity.
Qed.
Print Assumptions c21_register_ignored_refuted.
Definition const_demo : netlist :=
  let k := EAttr EKNone None (Range 0 0) false in
  mk_netlist [NInfo 0 KConstant None None; NInfo 1 KConstant None None; NInfo 2 KPort None None;
              NInfo 3 KAssignment None None; NInfo 4 KVariable None None]
    [((0, 2)%nat, k); ((2, 3)%nat, k); ((1, 3)%nat, k); ((3, 4)%nat, k)].
Example c21_nonvacuous : getConstantDrivers const_demo 4 = Some [0%nat; 1%nat] /\
  getConstantDrivers sens_demo 1 = Some [].
Proof. split; vm_compute; reflexivity. Qed.

(** ** C22. Black-box coverage. *)
Theorem c22_coverage_exact : forall bbs inf,
  (getBlackBoxCoverage bbs inf = Contained <-> IsContained bbs inf) /\
  (getBlackBoxCoverage bbs inf = Boundary <-> ~ IsContained bbs inf /\ IsBoundary bbs inf) /\
  (getBlackBoxCoverage bbs inf = Outside <-> ~ IsContained bbs inf /\ ~ IsBoundary bbs inf).
Proof. exact c22. Qed.
Print Assumptions c22_coverage_exact.
Theorem c22_order_irrelevant : forall bbs bbs' inf, (forall x, In x bbs <-> In x bbs') ->
  getBlackBoxCoverage bbs inf = getBlackBoxCoverage bbs' inf.
Proof. exact c22_order. Qed.
Print Assumptions c22_order_irrelevant.
Example c22_nonvacuous :
  let bbs := [lit "top.u"; lit "top.u.v"; lit "top.w"] in
  let port s := NInfo 0 KPort (Some s) None in
  let var s := NInfo 0 KVariable (Some s) None in
  getBlackBoxCoverage bbs (port (lit "top.u.clk")) = Boundary /\
  getBlackBoxCoverage bbs (port (lit "top.u.v.clk")) = Contained /\
  getBlackBoxCoverage bbs (var (lit "top.u.clk")) = Contained /\
  getBlackBoxCoverage bbs (port (lit "top.ux.clk")) = Outside /\
  getBlackBoxCoverage bbs (var (lit "top.w")) = Contained.
Proof. repeat split; vm_compute; reflexivity. Qed.
