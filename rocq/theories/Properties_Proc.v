(** C115, C116: from the source text of a design with combinational blocks to the answer
    of a query. *)
From Verif Require Import Base M_Graph M_Range M_Netlist M_DFS M_Path M_Annot M_Interval M_Heap M_Drivers M_Pending M_DFA M_Builder M_Slice M_Port M_Flow M_Proc
  S_Graph S_Reach S_Netlist S_DFA S_Slice S_Port S_Flow S_Proc P_Flow5 P_Flow6 P_Flow8 P_Proc3 Properties_Flow.

(** For every design of ports, connections, continuous assignments and combinational
    blocks, and every meaning of the conditions and of the matches of case statements: the values of a port are determined by
    the values of the unconnected input ports in its combinational fan-in cone (and of the
    bits that nothing drives), if the cone has no cycle. *)
Theorem c115_cone_determines : forall {V} (vz : V) istrue hits rb h nm ports width conns asgs procs,
  wf_design vz rb h ports conns asgs -> (forall x, In x procs -> comb_block vz rb h ports x) ->
  forall s nl q n lo hi cone,
  pflow vz rb h nm ports width conns asgs procs = Some (s, nl) -> In q ports -> In (n, BPort (fp_id q) (zrange lo hi)) (bnodes (fb s)) ->
  getCombFanIn nl n = Some cone -> (forall m, In m cone -> ~ Reach1 (CombBack nl) m m) ->
  forall v1 v2, psettled vz istrue hits conns asgs procs v1 -> psettled vz istrue hits conns asgs procs v2 -> pagree_undriven ports conns asgs procs v1 v2 ->
  (forall p m a c i, free_input ports conns p i -> In m cone -> In (m, BPort (fp_id p) (zrange a c)) (bnodes (fb s)) -> a <= i <= c ->
     v1 (fp_sy p) i = v2 (fp_sy p) i) ->
  forall i, lo <= i <= hi -> v1 (fp_sy q) i = v2 (fp_sy q) i.
Proof. exact @proc_cone. Qed.
Print Assumptions c115_cone_determines.

(** The analysis of the blocks never fails, and every bit of a driver of a port has a
    node. *)
Theorem c115_built : forall {V} (vz : V) rb h nm ports width conns asgs procs,
  wf_design vz rb h ports conns asgs -> (forall x, In x procs -> comb_block vz rb h ports x) ->
  exists s, pflow_state vz rb h nm ports width conns asgs procs = DOk s /\
    forall p a c x i, In p ports -> In (a, c, x) (fp_drivers p) -> a <= i <= c ->
      exists n lo hi, In (n, BPort (fp_id p) (zrange lo hi)) (bnodes (fb s)) /\ lo <= i <= hi.
Proof.
  intros V vz rb h nm ports width conns asgs procs W B. destruct (pstate_built vz (fun _ => true) (fun _ _ => true) rb h nm ports width conns asgs procs W B) as (b1 & ops & s & G0 & X & C & E & Pm & G & _).
  exists s. split; [exact E|]. intros p a c x i Ip I L. destruct (pm_cover _ _ _ _ Pm p a c x i Ip I L) as (n & lo & hi & N & K).
  exists n, lo, hi. split; [apply (g_old _ _ G), N|exact K].
Qed.
Print Assumptions c115_built.

(** * A design with a block *)
(** module top(input [1:0] a, b, input c, output [1:0] y); logic [1:0] t;
      always_comb begin t = a; if (c) y = t; else y = b; end endmodule
    Symbols: a 10, b 11, c 12, y 13, t 14. *)
Definition pe_ports := [FPort 0 10 [(0, 1, true)]; FPort 1 11 [(0, 1, true)]; FPort 2 12 [(0, 0, true)]; FPort 3 13 [(0, 1, false)]].
Definition pe_body : pst bool :=
  PSeq (PAsg true (bits_of 14 0 1) (bits_of 10 0 1))
       (PIfElse (bits_of 12 0 0) (PAsg true (bits_of 13 0 1) (bits_of 14 0 1)) (PAsg true (bits_of 13 0 1) (bits_of 11 0 1))).
Notation pe_procs := [FProc [] pe_body].
Definition no_h : hints := fun _ => None.
Notation pe_flow b := (pflow false true no_h (fun _ => []) pe_ports (fun _ => 1%Z) [] [] [FProc [] b]).
Definition holds (l : list bool) : bool := existsb (fun x => x) l.
(** The match of a case: equal values, the shorter one extended with zeros. *)
Fixpoint matches (a b : list bool) : bool :=
  match a, b with
  | [], _ => negb (holds b)
  | _, [] => negb (holds a)
  | x :: a, y :: b => Bool.eqb x y && matches a b
  end.

Lemma pe_wf : wf_design false true no_h pe_ports [] ([] : list (fasg bool)).
Proof.
  split; try solve [intros c []].
  - intros s l. discriminate.
  - cbn. repeat constructor; cbn; lia.
  - cbn. repeat constructor; cbn; lia.
  - intros p I. cbn in I. each I.
    all: (split; [intros lo hi x [[= <- <- <-]|[]]; lia|]; intros l lo hi x l' lo' hi' x' l'' E; cbn in E; destruct l as [|? l]; [destruct l'; discriminate|destruct l; discriminate]).
Qed.
Ltac readable_ok :=
  split; [cbn; repeat split; lia|split];
  [ intros s i p I J; cbn in I, J; each J; cbn; intros ->; repeat (destruct I as [I|I]; [discriminate|]); destruct I
  | intros _; cbn; repeat split; try lia; try discriminate ].
Ltac disjoint_ok := intros s i J K; cbn in J, K; repeat (destruct J as [J|J]; [inversion J; subst; repeat (destruct K as [K|K]; [discriminate K|]); destruct K|]); destruct J.
Ltac asg_ok_tac :=
  split; [reflexivity|split; [split; [exact I|split; [cbn; repeat split; try lia; discriminate|split; [cbn; repeat constructor; cbn; intuition congruence|split; [|discriminate]]]]|split; [readable_ok|split; [|split; [reflexivity|disjoint_ok]]]]];
  [ let q := fresh in let p := fresh in let Iq := fresh in let Ip := fresh in let R := fresh in intros q p Iq Ip R; cbn in Iq; each Iq; cbn in Ip; each Ip; try discriminate R; pick
  | let k := fresh "k" in let x := fresh in let I := fresh "I" in intros k x I; repeat (destruct k as [|k]; [cbn in I; destruct I as [I|[]]; discriminate|]); cbn in I; destruct k; destruct I ].
Ltac cond_ok_tac := split; [cbn; repeat split; lia|split; [cbn; tauto|intros s i p I J; cbn in I, J; each J; cbn; intros ->; repeat (destruct I as [I|I]; [discriminate|]); destruct I]].
Ltac stmt_tac :=
  match goal with
  | |- stmt_ok ?v ?r ?h ?o ?p => let p' := eval hnf in p in change p with p';
      lazymatch p' with
      | PSeq ?a ?b => change (stmt_ok v r h o a /\ stmt_ok v r h o b); split; stmt_tac
      | PIf ?c ?a => change (cond_ok o c /\ stmt_ok v r h o a); split; [cond_ok_tac|stmt_tac]
      | PIfElse ?c ?a ?b => change (cond_ok o c /\ stmt_ok v r h o a /\ stmt_ok v r h o b); split; [cond_ok_tac|split; stmt_tac]
      | PCase ?c ?l => change (cond_ok o c /\ items_ok v r h o l); split; [cond_ok_tac|stmt_tac]
      | PAsg ?b ?x ?y => change (asg_ok v r h o b x y); red; asg_ok_tac
      | PSkip => exact I
      end
  | |- items_ok ?v ?r ?h ?o ?p => let p' := eval hnf in p in change p with p';
      lazymatch p' with
      | PDefault ?a => change (stmt_ok v r h o a); stmt_tac
      | PItem ?xs ?a ?l => change ((forall y, In y xs -> cond_ok o y) /\ stmt_ok v r h o a /\ items_ok v r h o l);
          split; [let y := fresh in let J := fresh in intros y J; repeat (destruct J as [<-|J]; [cond_ok_tac|]); destruct J|split; stmt_tac]
      end
  end.
Ltac reads_tac :=
  cbn; unfold settled_read; repeat (split || intros);
  repeat match goal with
  | J : In _ _ |- _ => progress cbn in J
  | J : _ \/ _ |- _ => destruct J
  | J : False |- _ => destruct J
  | J : _ = ?y |- _ => subst y
  | J : (_, _) = (_, _) |- _ => injection J as <- <-
  end; cbn; intuition discriminate.
Definition ranges_ok (b : pst bool) : Prop := forall p, proc_stmt false true no_h b = Some p -> aligned_writes (all_writes p) /\ reads_fit p.
Ltac ranges_tac :=
  let p := fresh "p" in let E := fresh "E" in intros p E; vm_compute in E; injection E as <-; split;
  [ intros l sy b l' b' I J; cbn in I, J; repeat (destruct I as [[= <- <- <-]|I]); try (exfalso; exact I); repeat (destruct J as [J|J]); try (exfalso; exact J); inversion J; subst; cbn; lia
  | intros l t w b I J; cbn in I, J; repeat (destruct I as [[= <- <- <-]|I]); try (exfalso; exact I); repeat (destruct J as [J|J]); try (exfalso; exact J); inversion J; subst; cbn; lia ].

Lemma pe_block : comb_block false true no_h pe_ports (FProc [] pe_body).
Proof.
  split.
  - reflexivity.
  - stmt_tac.
  - cbn. tauto.
  - cbn. intuition.
  - reads_tac.
  - ranges_tac.
Qed.
Example pe_cone : cone_of (pe_flow pe_body) 3 = Some [3; 7; 5; 2; 1; 6; 4; 0].
Proof. vm_compute. reflexivity. Qed.
(** So the inputs determine the output. *)
Example pe_determined : forall v1 v2, psettled false holds matches [] [] pe_procs v1 -> psettled false holds matches [] [] pe_procs v2 ->
  pagree_undriven pe_ports [] [] pe_procs v1 v2 -> (forall t i, 10 <= t <= 12 -> v1 t i = v2 t i) -> forall i, i <= 1 -> v1 13 i = v2 13 i.
Proof.
  intros v1 v2 S1 S2 U A.
  assert (B : match pe_flow pe_body with
    | Some (s, nl) => getCombFanIn nl 3 = Some [3; 7; 5; 2; 1; 6; 4; 0] /\
        ranked nl (fun n => nth n [0; 0; 0; 6; 1; 2; 3; 5] 0) [3; 7; 5; 2; 1; 6; 4; 0] = true /\ nth_error (bnodes (fb s)) 3 = Some (3, BPort 3 (zrange 0 1))
    | None => False end).
  { vm_compute. repeat split. }
  destruct (pe_flow pe_body) as [[s nl]|] eqn:E; [|destruct B]. destruct B as (C & R & N). intros i L.
  pose proof (c115_cone_determines false holds matches true no_h (fun _ => []) pe_ports (fun _ => 1%Z) [] [] pe_procs pe_wf) as T.
  specialize (T ltac:(intros x [<-|[]]; exact pe_block) s nl (FPort 3 13 [(0, 1, false)]) 3 0 1 [3; 7; 5; 2; 1; 6; 4; 0] E).
  cbn [fp_id fp_sy] in T. apply T; auto; [cbn; tauto|exact (nth_error_In _ _ N)|exact (ranked_acyclic nl 3 _ _ (pflow_wf _ _ _ _ _ _ _ _ _ _ _ E) C R)| |lia].
  intros p m a c k (Ip & (lo & hi & I & K) & Fr) _ _ _. cbn in Ip. each Ip; cbn in I; destruct I as [I|[]]; try discriminate I; apply A; cbn; lia.
Qed.

(** The same with a case statement, whose items have expressions that are variables:
    always_comb begin t = a; case (t) b: y = a; c, a[1]: y = b; default: y = t; endcase end *)
Definition pc_body : pst bool :=
  PSeq (PAsg true (bits_of 14 0 1) (bits_of 10 0 1))
       (PCase (bits_of 14 0 1) (PItem [bits_of 11 0 1] (PAsg true (bits_of 13 0 1) (bits_of 10 0 1))
          (PItem [bits_of 12 0 0; bits_of 10 1 1] (PAsg true (bits_of 13 0 1) (bits_of 11 0 1)) (PDefault (PAsg true (bits_of 13 0 1) (bits_of 14 0 1)))))).
Lemma pc_block : comb_block false true no_h pe_ports (FProc [] pc_body).
Proof.
  split.
  - reflexivity.
  - cbn [pr_body]. stmt_tac.
  - cbn. tauto.
  - cbn. intuition.
  - reads_tac.
  - ranges_tac.
Qed.
Example pc_cone : cone_of (pe_flow pc_body) 3 = Some [3; 6; 5; 4; 0; 1; 2; 7; 9].
Proof. vm_compute. reflexivity. Qed.

(** * Where it fails *)
(** What the theorem says, for a design of the ports above and one block. *)
Definition block_determines (b : pst bool) : Prop :=
  forall s nl q n lo hi cone,
  pe_flow b = Some (s, nl) -> In q pe_ports -> In (n, BPort (fp_id q) (zrange lo hi)) (bnodes (fb s)) ->
  getCombFanIn nl n = Some cone -> (forall m, In m cone -> ~ Reach1 (CombBack nl) m m) ->
  forall v1 v2, psettled false holds matches [] [] [FProc [] b] v1 -> psettled false holds matches [] [] [FProc [] b] v2 -> pagree_undriven pe_ports [] [] [FProc [] b] v1 v2 ->
  (forall p m a c i, free_input pe_ports ([] : list (fconn bool)) p i -> In m cone -> In (m, BPort (fp_id p) (zrange a c)) (bnodes (fb s)) -> a <= i <= c ->
     v1 (fp_sy p) i = v2 (fp_sy p) i) ->
  forall i, lo <= i <= hi -> v1 (fp_sy q) i = v2 (fp_sy q) i.
Example pe_determines : block_determines pe_body.
Proof.
  intros s nl q n lo hi cone E.  apply (c115_cone_determines false holds matches true no_h (fun _ => []) pe_ports (fun _ => 1%Z) [] [] pe_procs pe_wf); [|exact E].
  intros x [<-|[]]. exact pe_block.
Qed.
Example pc_determines : block_determines pc_body.
Proof.
  intros s nl q n lo hi cone E.  apply (c115_cone_determines false holds matches true no_h (fun _ => []) pe_ports (fun _ => 1%Z) [] [] [FProc [] pc_body] pe_wf); [|exact E].
  intros x [<-|[]]. exact pc_block.
Qed.
Definition latch_free (b : pst bool) : Prop := forall s i, may b s i -> must b s i.
Definition settled_reads (b : pst bool) : Prop := reads_ok (fun _ _ => False) (fun _ _ => False) b.
Notation pe_stmt := (stmt_ok false true no_h pe_ports).

(** A valuation with values for the symbols 10 to 14. *)
Definition val (a b c y t : nat -> bool) (s i : nat) : bool :=
  if Nat.eqb s 10 then a i else if Nat.eqb s 11 then b i else if Nat.eqb s 12 then c i else if Nat.eqb s 13 then y i else if Nat.eqb s 14 then t i else false.
(** Bits [0] to [w - 1] all [x]. *)
Definition all (w : nat) (x : bool) (i : nat) : bool := x && (i <? w).
(** A block is refuted by two valuations that differ in inputs outside of the cone of
    [y]. *)
Lemma refute b cone rank v1 v2 :
  match pe_flow b with
  | Some (s, nl) => getCombFanIn nl 3 = Some cone /\ ranked nl rank cone = true /\
      bnodes (fb s) = [(0, BPort 0 (zrange 0 1)); (1, BPort 1 (zrange 0 1)); (2, BPort 2 (zrange 0 0)); (3, BPort 3 (zrange 0 1))]
  | None => False end ->
  psettled false holds matches [] [] [FProc [] b] v1 -> psettled false holds matches [] [] [FProc [] b] v2 -> pagree_undriven pe_ports [] [] [FProc [] b] v1 v2 ->
  (forall t i, t <= 2 -> In t cone -> v1 (t + 10) i = v2 (t + 10) i) -> v1 13 0 <> v2 13 0 -> ~ block_determines b.
Proof.
  intros B S1 S2 U A D H. destruct (pe_flow b) as [[s nl]|] eqn:E; [|destruct B]. destruct B as (C & R & N). apply D.
  specialize (H s nl (FPort 3 13 [(0, 1, false)]) 3 0 1 cone E).  cbn [fp_id fp_sy] in H. apply H with (v1 := v1) (v2 := v2); [cbn; tauto|rewrite N; cbn; tauto|exact C|exact (ranked_acyclic nl 3 _ _ (pflow_wf _ _ _ _ _ _ _ _ _ _ _ E) C R)|exact S1|exact S2|exact U| |lia].
  intros p m a c k (Ip & (lo & hi & I & K) & Fr) Im J _. rewrite N in J. cbn in J.
  destruct J as [J|[J|[J|[J|[]]]]]; injection J as <- J _ _; cbn in Ip; each Ip; try discriminate J; cbn in I; destruct I as [I|[]]; try discriminate I; cbn.
  - exact (A 0 k ltac:(lia) Im).
  - exact (A 1 k ltac:(lia) Im).
  - exact (A 2 k ltac:(lia) Im).
Qed.

Ltac bound_tac N := cbn [Nat.eqb andb]; try reflexivity; first [symmetry; apply Nat.ltb_ge | apply Nat.ltb_ge]; apply Nat.nlt_ge; intros L; apply N; clear N.
Ltac undriven_tac :=
  let s := fresh "s" in let i := fresh "i" in let N := fresh "N" in
  intros s i N; unfold val, all;
  destruct (Nat.eqb_spec s 10); [subst s; bound_tac N|destruct (Nat.eqb_spec s 11); [subst s; bound_tac N|
    destruct (Nat.eqb_spec s 12); [subst s; bound_tac N|destruct (Nat.eqb_spec s 13); [subst s; bound_tac N|destruct (Nat.eqb_spec s 14); [subst s; bound_tac N|reflexivity]]]]].
Ltac port_tac k lo hi :=
  left; apply (driven_port _ _ _ _ _ (nth k pe_ports (FPort 0 0 []))); [cbn; tauto|reflexivity|]; exists lo, hi; split; [left; reflexivity|lia].
Ltac blk_tac := right; eexists; split; [left; reflexivity|]; cbn; match goal with |- context [(_, 0) = (_, ?i)] => destruct i as [|[|[|[|i]]]]; try lia; tauto end.
Ltac settled_tac :=
  split; [split; intros ? []|]; let x := fresh in let s := fresh in let i := fresh in let M := fresh "M" in
  intros x s i [<-|[]] M; cbn in M; repeat (destruct M as [M|M]); try (injection M as <- <-; reflexivity); destruct M.

(** always_comb if (c) begin t = a; y = a; end else begin t = a; y = b; end
    Only the first statement of a branch gets the edge from the condition: the cone of [y]
    misses [c].  All contracts but that on the shape of branches hold. *)
Definition br_body : pst bool :=
  PIfElse (bits_of 12 0 0) (PSeq (PAsg true (bits_of 14 0 1) (bits_of 10 0 1)) (PAsg true (bits_of 13 0 1) (bits_of 10 0 1)))
    (PSeq (PAsg true (bits_of 14 0 1) (bits_of 10 0 1)) (PAsg true (bits_of 13 0 1) (bits_of 11 0 1))).
Theorem c116_branch_refuted :
  pe_stmt br_body /\ latch_free br_body /\ settled_reads br_body /\ ranges_ok br_body /\ ~ block_determines br_body.
Proof.
  split; [stmt_tac|]. split; [intros s i; cbn; tauto|]. split; [reads_tac|]. split; [ranges_tac|].
  apply (refute _ [3; 8; 1; 6; 0] (fun n => nth n [0; 0; 0; 9; 0; 0; 1; 0; 2] 0) (val (all 2 true) (all 2 false) (all 1 false) (all 2 false) (all 2 true)) (val (all 2 true) (all 2 false) (all 1 true) (all 2 true) (all 2 true))).
  - vm_compute. repeat split.
  - settled_tac.
  - settled_tac.
  - undriven_tac; [port_tac 2 0 0|blk_tac].
  - intros t i L I. cbn in I. repeat (destruct I as [<-|I]); try lia; reflexivity || destruct I.
  - discriminate.
Qed.
Print Assumptions c116_branch_refuted.

(** always_comb begin t[1:0] = a; t[3:2] = b; y = t[2:1]; end
    A read that straddles two writes finds one of them: the cone of [y] misses [a]. *)
Definition st_body : pst bool :=
  PSeq (PAsg true (bits_of 14 0 1) (bits_of 10 0 1)) (PSeq (PAsg true (bits_of 14 2 3) (bits_of 11 0 1)) (PAsg true (bits_of 13 0 1) (bits_of 14 1 2))).
Theorem c116_straddle_refuted :
  pe_stmt st_body /\ top st_body /\ latch_free st_body /\ settled_reads st_body /\ ~ block_determines st_body.
Proof.
  split; [stmt_tac|]. split; [cbn; tauto|]. split; [intros s i; cbn; tauto|]. split; [reads_tac|].
  apply (refute _ [3; 6; 5; 1] (fun n => nth n [0; 0; 0; 9; 0; 1; 2] 0) (val (all 2 false) (all 2 false) (all 1 false) (all 2 false) (all 2 false)) (val (all 2 true) (all 2 false) (all 1 false) (all 1 true) (all 2 true))).
  - vm_compute. repeat split.
  - settled_tac.
  - settled_tac.
  - undriven_tac; [port_tac 0 0 1|blk_tac|blk_tac].
  - intros t i L I. cbn in I. repeat (destruct I as [<-|I]); try lia; reflexivity || destruct I.
  - discriminate.
Qed.
Print Assumptions c116_straddle_refuted.

(** always_comb begin if (c) t = a; y = t; t = b; end
    A read after a write on some paths only: the value from before the block is missing,
    and with it [b] from the cone of [y]. *)
Definition mb_body : pst bool :=
  PSeq (PIf (bits_of 12 0 0) (PAsg true (bits_of 14 0 1) (bits_of 10 0 1)))
   (PSeq (PAsg true (bits_of 13 0 1) (bits_of 14 0 1)) (PAsg true (bits_of 14 0 1) (bits_of 11 0 1))).
Theorem c116_maybe_refuted :
  pe_stmt mb_body /\ top mb_body /\ latch_free mb_body /\ ranges_ok mb_body /\ ~ block_determines mb_body.
Proof.
  split; [stmt_tac|]. split; [cbn; tauto|]. split; [intros s i; cbn; tauto|]. split; [ranges_tac|].
  apply (refute _ [3; 7; 4; 2; 5; 0] (fun n => nth n [0; 0; 0; 9; 1; 2; 0; 8] 0) (val (all 2 false) (all 2 false) (all 1 false) (all 2 false) (all 2 false)) (val (all 2 false) (all 2 true) (all 1 false) (all 2 true) (all 2 true))).
  - vm_compute. repeat split.
  - settled_tac.
  - settled_tac.
  - undriven_tac; [port_tac 1 0 1|blk_tac|blk_tac].
  - intros t i L I. cbn in I. repeat (destruct I as [<-|I]); try lia; reflexivity || destruct I.
  - discriminate.
Qed.
Print Assumptions c116_maybe_refuted.
