(** Properties C97 and C98: references and branches of expressions. *)
From Coq Require Import String.
From Verif Require Import Base M_Graph M_Range M_Netlist M_Annot M_Interval M_Heap M_Drivers M_Pending
  M_DFA S_Interval S_Drivers S_DFA P_Interval P_Heap P_Drivers P_DriversX P_DFA P_DFA2 P_DFA3 P_DFA4 P_DFA5 P_DFA6
  M_Expr S_Expr P_Expr P_Expr2.
Notation length := List.length.
Local Open Scope Z_scope.

(** Helpers of the witnesses: one-bit references. *)
Definition nmx (n : nat) : str := match n with 0%nat => lit "y" | 1%nat => lit "a" | 2%nat => lit "b" | 3%nat => lit "c" | _ => lit "d" end.
Definition nox (n : nat) : bool := false.
Definition b1 (n : nat) : ref := (n, Range 0 0).
Definition x1 (n : nat) : vx := XRef (b1 n).

(** * C97: every reference of an expression is recorded for the node that evaluates it.

    False, whatever the short-circuit operators do: in [y = (a ? b : c) + d] the join of the two arms has no
    node, so [d] is queued without one and gets no edge. *)
Theorem c97_lost_refuted : forall sc ns, exists s,
  assign_expr nmx nox None sc ns (start 5) 1 true [b1 0] (XSeq (XCond (x1 1) (x1 2) (x1 3)) (x1 4)) = DOk s /\
  pending_for (fxs s) (KAssign 1) 1 0 /\ pending_for (fxs s) (KAssign 1) 2 0 /\ pending_for (fxs s) (KAssign 1) 3 0 /\
  (forall k, ~ pending_for (fxs s) k 4 0) /\ fdeps (fxs s) = [].
Proof.
  intros sc ns. eexists. split; [vm_compute; reflexivity|].
  split; [eexists (Pend 1%nat _ _ (Some 5%nat) _), 5%nat; vm_compute; intuition discriminate|].
  split; [eexists (Pend 2%nat _ _ (Some 5%nat) _), 5%nat; vm_compute; intuition discriminate|].
  split; [eexists (Pend 3%nat _ _ (Some 5%nat) _), 5%nat; vm_compute; intuition discriminate|].
  split; [|reflexivity]. intros k (x & m & I & Es & En & _). vm_compute in I.
  repeat (destruct I as [<-|I]; [cbn in *; congruence|]). easy.
Qed.
Print Assumptions c97_lost_refuted.

(** What holds, from any state built from driver writes whose entries are intact: exactly the references
    that an odd number of evaluation paths lead to are recorded for the current node; the others are queued
    for the external node of the analysis (none for procedural blocks and assignments). *)
Theorem c97_recorded_partial : forall nm automatic external sc ns h a f m c e,
  track_all (AS [] (Some m) c true) h = DOk a -> (forall x, ~ dangling (defs a x)) ->
  exists r ds ps, visit nm automatic external sc ns (ST a f) e = DOk r /\
    fdeps (fxs (fst r)) = fdeps f ++ ds /\ fpend (fxs (fst r)) = fpend f ++ ps /\
    (forall P sy b, In (P, (sy, b)) (occ sc ns e) -> automatic sy = false -> Nat.odd (length P) = true ->
       (forall i, bit b i -> (forall n, ~ driven_by a sy i n) ->
          (forall x, In x (ivs (defs a sy)) -> get (lists (defs a sy)) (ival x) <> Some []) ->
          exists x, In x ps /\ psym x = sy /\ pnode x = Some m /\ bit (pbounds x) i) /\
       ((forall x, In x (ivs (defs a sy)) -> ilo x <= upper b -> lower b <= ihi x ->
           (ilo x <= lower b /\ upper b <= ihi x) \/ (lower b <= ilo x /\ ihi x <= upper b)) ->
        forall i n, bit b i -> driven_by a sy i n -> In (DDep n m (Some (nm sy)) b EKNone) ds)) /\
    (forall P sy b, In (P, (sy, b)) (occ sc ns e) -> automatic sy = false -> Nat.odd (length P) = false ->
       In (Pend sy (nm sy) b external EKNone) ps) /\
    (forall d, In d ds -> exists P sy b n i, In (P, (sy, b)) (occ sc ns e) /\ automatic sy = false /\ Nat.odd (length P) = true /\
       d = DDep n m (Some (nm sy)) b EKNone /\ bit b i /\ driven_by a sy i n) /\
    (forall x, In x ps -> exists P b, In (P, (psym x, b)) (occ sc ns e) /\ automatic (psym x) = false /\
       pnode x = (if Nat.odd (length P) then Some m else external) /\ forall i, bit (pbounds x) i -> bit b i).
Proof.
  intros nm automatic external sc ns h a f m c e E Dg.
  pose proof (track_all_okG _ _ _ _ _ E Dg) as O. destruct (track_all_keep _ _ _ E) as (En & _ & Er). cbn in En, Er.
  destruct (walk_from nm automatic external sc ns a f m e O En Er) as (r & ds & ps & Ev & [Ex _] & F).
  exists r, ds, ps. split; [exact Ev|]. split; [now rewrite Ex|]. split; [now rewrite Ex|].
  split; [|split; [|split]].
  - intros P sy b I A Od. destruct (eff_has _ _ _ _ _ _ _ _ _ F P sy b I A) as [H _]. destruct (H Od) as [H1 H2]. split.
    + intros i Bi N Ne. apply H1; [exact Bi|]. intros C. destruct (O sy) as [_ V]. apply covers_has in C; auto.
      destruct C as (n & Hn). apply (N n). now apply driven_has.
    + intros Fi i n Bi Hn. apply (H2 Fi i n Bi). now apply driven_has in Hn.
  - intros P sy b I A Od. destruct (eff_has _ _ _ _ _ _ _ _ _ F P sy b I A) as [_ H]. exact (H Od).
  - intros d I. destruct (eff_dep _ _ _ _ _ _ _ _ _ F d I) as (P & sy & b & n & i & J & _ & Od & A & Q & Bi & Hn).
    exists P, sy, b, n, i. repeat (split; [assumption|]). now apply driven_has.
  - intros x I. exact (eff_pend _ _ _ _ _ _ _ _ _ F x I).
Qed.
Print Assumptions c97_recorded_partial.

(** So everything is recorded if conditional expressions occur in last position only and there is no
    short-circuit operator: one path leads to each reference. *)
Theorem c97_tail_recorded : forall sc ns e P r, Tail e -> In (P, r) (occ sc ns e) -> length P = 1%nat.
Proof. intros sc ns e P r T. exact (tail_occ sc ns e T P r). Qed.
Print Assumptions c97_tail_recorded.

(** Where [&&] and [||] are branches: the operands of a chain of two or more are recorded, but an operand
    after the chain only if the chain has an even number of operands. *)
Theorem c97_after_chain : forall ns x l y, plain_expr x = true -> Forall (fun z => plain_expr z = true) l -> l <> [] ->
  forall e, e = and_chain x l \/ e = or_chain x l ->
  (forall P r, In (P, r) (occ true ns e) -> length P = 1%nat) /\
  exists P, occ true ns (XSeq e (XRef y)) = occ true ns e ++ [(P, y)] /\ length P = S (S (length l)).
Proof.
  intros ns x l y Px Pl Ne e He. destruct (chain_total ns x l Px Pl Ne) as [Ta To]. split.
  - destruct He as [->| ->].
    + apply (and_chain_counts ns l x 1 (plain_counts ns x Px) Pl).
    + apply (or_chain_counts ns l x 1 (plain_counts ns x Px) Pl).
  - eexists. split; [reflexivity|]. cbn [fst]. rewrite len_cat. cbn [List.length]. rewrite Nat.mul_1_r.
    destruct He as [->| ->]; assumption.
Qed.
Print Assumptions c97_after_chain.

(** Three operands of [&&] lose what follows, two do not; [(a || b) && c] loses [c]. *)
Example c97_ex : forall ns,
  map (fun x => (Nat.odd (length (fst x)), fst (snd x))) (occ true ns (XSeq (XAnd (XAnd (x1 1) (x1 2)) (x1 3)) (x1 4))) =
    [(true, 1); (true, 2); (true, 3); (false, 4)]%nat /\
  map (fun x => (Nat.odd (length (fst x)), fst (snd x))) (occ true ns (XSeq (XAnd (x1 1) (x1 2)) (x1 3))) =
    [(true, 1); (true, 2); (true, 3)]%nat /\
  map (fun x => (Nat.odd (length (fst x)), fst (snd x))) (occ true ns (XAnd (XOr (x1 1) (x1 2)) (x1 3))) =
    [(true, 1); (true, 2); (false, 3)]%nat.
Proof. intros ns. repeat split. Qed.
Example c97_ex_tail : Tail (XCond (x1 1) (XSeq (x1 2) (x1 3)) (XCond (x1 4) (x1 2) (x1 3))).
Proof. apply tail_cond; [reflexivity|now apply tail_plain|]. apply tail_cond; [reflexivity| |]; now apply tail_plain. Qed.

(** * C98: both branches of an if statement are control dependent on its condition.

    False, whatever the short-circuit operators do: with [if (a ? b : c) y = ..; else y = ..;] neither assignment has an edge
    from the conditional. *)
Definition set_y (l : nat) : stmt := SAligned l true [Seg [b1 0] []].
Theorem c98_conditional_refuted : forall sc ns, exists s,
  exec_if_expr nmx nox None sc ns (start 5) 1 (XCond (x1 1) (x1 2) (x1 3)) (set_y 2) (set_y 3) = DOk s /\
  is_kind (fxs s) 5 (KCond 1) /\ is_kind (fxs s) 6 (KAssign 2) /\ is_kind (fxs s) 7 (KAssign 3) /\
  forall n m, In (DPlain n m) (fdeps (fxs s)) -> n <> 5%nat.
Proof.
  intros sc ns. eexists. split; [vm_compute; reflexivity|]. split; [vm_compute; auto|]. split; [vm_compute; auto|].
  split; [vm_compute; auto|]. intros n m I. vm_compute in I. destruct I as [I|[I|[]]]; injection I; intros; subst; discriminate.
Qed.
Print Assumptions c98_conditional_refuted.

(** With short-circuit branches also [if (a && b) y = ..; else y = ..;], for the else branch. *)
Theorem c98_and_refuted : forall ns, exists s,
  exec_if_expr nmx nox None true ns (start 5) 1 (XAnd (x1 1) (x1 2)) (set_y 2) (set_y 3) = DOk s /\
  control_edge (fxs s) (KCond 1) (KAssign 2) /\ ~ control_edge (fxs s) (KCond 1) (KAssign 3).
Proof.
  intros ns. eexists. split; [vm_compute; reflexivity|]. split.
  - exists 5%nat, 6%nat. vm_compute. auto 8.
  - intros (n & m & I & K & K'). unfold is_kind in *. vm_compute in I, K, K'.
    repeat (destruct K as [K|K]; [injection K; intros; subst; try discriminate|]); try easy.
    repeat (destruct I as [I|I]; [injection I; intros; subst; try discriminate|]); try easy.
    repeat (destruct K' as [K'|K']; [discriminate K'|]). easy.
Qed.
Print Assumptions c98_and_refuted.

(** What holds: the state that enters a branch carries the conditional node, as current node and as
    condition, iff an odd number of evaluation paths give the condition the branch's value; *)
Theorem c98_enter_partial : forall nm automatic external sc ns h a n0 c0 f l c,
  track_all (AS [] n0 c0 true) h = DOk a -> (forall x, ~ dangling (defs a x)) ->
  exists s1 af, enter_if_expr nm automatic external sc ns (ST a f) l c = DOk (s1, af) /\
    is_kind (fxs s1) (fnext f) (KCond l) /\ (fnext f < fnext (fxs s1))%nat /\
    forall v, let ab := if v : bool then cur s1 else af in
      let node := if Nat.odd (length (epaths sc ns (Some v) c)) then Some (fnext f) else None in
      adefs ab = adefs a /\ areach ab = true /\ anode ab = node /\ acond ab = node.
Proof.
  intros nm automatic external sc ns h a n0 c0 f l c E Dg.
  pose proof (track_all_okG _ _ _ _ _ E Dg) as O. destruct (track_all_keep _ _ _ E) as (_ & _ & Er). cbn in Er.
  destruct (enter_spec nm automatic external sc ns (ST a f) l c O Er)
    as (s1 & af & ds & ps & Ee & K & L & D1 & D2 & R1 & R2 & N1 & C1 & N2 & C2 & _).
  cbn [fxs cur] in *. exists s1, af. split; [exact Ee|]. split; [exact K|]. split; [lia|].
  intros [|]; cbn [andb]; auto.
Qed.
Print Assumptions c98_enter_partial.

(** with the condition every node of the branch's first assignment gets the control edge, one node per
    segment; without it no node older than the branch gets one to it. *)
Theorem c98_control_partial : forall nm automatic external s l bl gs s',
  exec nm automatic external s (SAligned l bl gs) = DOk s' ->
  (forall c, acond (cur s) = Some c -> exists ids, length ids = length gs /\ NoDup ids /\
     forall n, In n ids -> is_kind (fxs s') n (KAssign l) /\ In (DPlain c n) (fdeps (fxs s'))) /\
  (acond (cur s) = None -> exists ds, fdeps (fxs s') = fdeps (fxs s) ++ ds /\
     forall x y, In (DPlain x y) ds -> (fnext (fxs s) <= x)%nat).
Proof.
  intros nm automatic external s l bl gs s' E. split.
  - intros c A. exact (aligned_control nm automatic external s l bl gs s' c A E).
  - intros A. exact (aligned_no_old nm automatic external s l bl gs s' A E).
Qed.
Print Assumptions c98_control_partial.

(** A condition without branching operators has one path to each outcome; a chain of [k] operands of
    [&&] has one path to true and [k] to false; dually for [||]. *)
Theorem c98_plain : forall sc ns c v, plain_expr c = true -> length (epaths sc ns (Some v) c) = 1%nat.
Proof. intros sc ns c v H. exact (plain_one sc ns c H (Some v)). Qed.
Print Assumptions c98_plain.
Theorem c98_chain : forall ns x l, plain_expr x = true -> Forall (fun z => plain_expr z = true) l ->
  length (epaths true ns (Some true) (and_chain x l)) = 1%nat /\
  length (epaths true ns (Some false) (and_chain x l)) = S (length l) /\
  length (epaths true ns (Some true) (or_chain x l)) = S (length l) /\
  length (epaths true ns (Some false) (or_chain x l)) = 1%nat.
Proof.
  intros ns x l Px Pl. destruct (and_chain_counts ns l x 1 (plain_counts ns x Px) Pl) as (A1 & A2 & _).
  destruct (or_chain_counts ns l x 1 (plain_counts ns x Px) Pl) as (O1 & O2 & _). auto.
Qed.
Print Assumptions c98_chain.

Example c98_ex : exists s, exec_if_expr nmx nox None true true (start 5) 1 (XAnd (XAnd (x1 1) (x1 2)) (x1 3)) (set_y 2) (set_y 3) = DOk s /\
  In (DPlain 5 6) (fdeps (fxs s)) /\ In (DPlain 5 7) (fdeps (fxs s)).
Proof. eexists. vm_compute. auto 8. Qed.
