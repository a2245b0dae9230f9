(** C129, C130: the netlist of a design with procedural blocks has no edge, and a fan-in cone no
    port, that the source does not account for. *)
From Verif Require Import Base M_Graph M_Range M_Netlist M_DFS M_Path M_Annot M_Interval M_Heap M_Drivers M_Pending M_DFA M_Builder M_Slice M_Port M_Flow M_Proc
  S_Graph S_Reach S_Netlist S_DFA S_Slice S_Port S_Flow S_Proc S_Prec S_Prec2 P_Flow5 P_Flow6 P_Flow8 P_Proc3 P_Prec P_Prec2 P_Prec3 P_Prec4 P_Prec5 P_Prec8
  Properties_Flow Properties_Prec Properties_Proc Properties_Seq.

(** Every node stands for a range of a port, a piece of an assignment, a constant, a block or
    a register of a block; the State nodes are the registers, and every edge goes from a
    piece that writes a bit to a piece that reads it, or stays within a block and its
    registers.  Blocks may be combinational or clocked, have latches, and read what they
    write. *)
Theorem c129_edges_feed : forall {V} (vz : V) rb h nm width ports conns asgs procs,
  wf_design vz rb h ports conns asgs -> one_driver ports conns asgs -> no_port_names ports asgs -> blocks_apart vz rb h ports conns asgs procs ->
  (forall s, 0 <= width s)%Z -> forall s nl, pflow vz rb h nm ports width conns asgs procs = Some (s, nl) ->
  exists role, pieces vz rb width ports conns asgs procs (bnodes (fb s)) nl role.
Proof. intros V vz rb h nm width ports conns asgs procs W O N B Wd s nl F. destruct (pieces_sound vz rb h nm width ports conns asgs procs W O N B Wd s nl F) as (role & P & _). exists role. exact P. Qed.
Print Assumptions c129_edges_feed.

(** What is in the fan-in cone of a port is connected to it on a way that leaves no
    register. *)
Definition pcones_connected {V} (vz : V) rb h nm width ports conns asgs procs : Prop :=
  forall s nl n cone, pflow vz rb h nm ports width conns asgs procs = Some (s, nl) -> getCombFanIn nl n = Some cone ->
  forall p lo hi q a c m, In p ports -> In q ports -> In (n, BPort (fp_id p) (zrange lo hi)) (bnodes (fb s)) -> In m cone ->
    In (m, BPort (fp_id q) (zrange a c)) (bnodes (fb s)) -> PConnected vz rb width ports conns asgs procs (Plain (XPort q a c)) (Plain (XPort p lo hi)).
Theorem c129_cone_connected : forall {V} (vz : V) rb h nm width ports conns asgs procs,
  wf_design vz rb h ports conns asgs -> one_driver ports conns asgs -> no_port_names ports asgs -> blocks_apart vz rb h ports conns asgs procs ->
  (forall s, 0 <= width s)%Z -> pcones_connected vz rb h nm width ports conns asgs procs.
Proof. intros V vz rb h nm width ports conns asgs procs W O N B Wd s nl n cone. exact (pcone vz rb h nm width ports conns asgs procs W O N B Wd s nl n cone). Qed.
Print Assumptions c129_cone_connected.

(** * A design with two blocks *)
Ltac basg_tac :=
  split; [split; [exact I|split; [cbn; repeat split; try lia; discriminate|split; [cbn; repeat constructor; cbn; intuition congruence|split; [|discriminate]]]]|split; [readable_ok|split; [|reflexivity]]];
  [ let q := fresh in let p := fresh in let Iq := fresh in let Ip := fresh in let R := fresh in intros q p Iq Ip R; cbn in Iq; each Iq; cbn in Ip; each Ip; try discriminate R; pick
  | let k := fresh "k" in let x := fresh in let I := fresh "I" in intros k x I; repeat (destruct k as [|k]; [cbn in I; destruct I as [I|[]]; discriminate|]); cbn in I; destruct k; destruct I ].
Ltac bstmt_tac :=
  match goal with
  | |- bstmt_ok ?v ?r ?h ?o ?p => let p' := eval hnf in p in change p with p';
      lazymatch p' with
      | PSeq ?a ?b => change (bstmt_ok v r h o a /\ bstmt_ok v r h o b); split; bstmt_tac
      | PIf ?c ?a => change (cond_ok o c /\ bstmt_ok v r h o a); split; [cond_ok_tac|bstmt_tac]
      | PIfElse ?c ?a ?b => change (cond_ok o c /\ bstmt_ok v r h o a /\ bstmt_ok v r h o b); split; [cond_ok_tac|split; bstmt_tac]
      | PAsg ?b ?x ?y => change (basg_ok v r h o x y); red; basg_tac
      | PSkip => exact I
      end
  end.
Ltac apart_tac M I := cbn in M, I; intuition congruence.
Ltac names_tac := intros ?s ?i ?p ?M ?I; match goal with I : In _ _ |- _ => cbn in I; each I end; match goal with M : may _ _ _ |- _ => cbn in M |- * end; intros ->; intuition congruence.
Ltac clocks_tac := intros ?s ?p ?M ?I; match goal with M : In _ (map _ _) |- _ => cbn in M; each M end; match goal with I : In _ _ |- _ => cbn in I; each I end; discriminate.
Notation sq_procs := [FProc [] (PAsg true (bits_of 13 0 1) (bits_of 15 0 1)); FProc [(9, EKPos)] sq_body].
Example sq_apart : one_driver sq_ports ([] : list (fconn bool)) [] /\ no_port_names sq_ports ([] : list (fasg bool)) /\ blocks_apart false true no_h sq_ports [] [] sq_procs.
Proof.
  split; [|split].
  - unfold one_driver. cbn. repeat constructor; cbn; intuition congruence.
  - intros a s i p [].
  - split.
    + repeat constructor; cbn; intuition discriminate.
    + intros x [<-|[<-|[]]].
      * split; [cbn [pr_body]; bstmt_tac|aligned_tac|names_tac|clocks_tac].
      * split; [cbn [pr_body]; bstmt_tac|aligned_tac|names_tac|clocks_tac].
    + intros x s i [<-|[<-|[]]] M I; apart_tac M I.
    + intros x y s i [<-|[<-|[]]] [<-|[<-|[]]] M1 M2; try reflexivity; exfalso; apart_tac M1 M2.
Qed.
(** Input a reaches the registers only, so it is in no fan-in cone of output y. *)
Definition sq_a (x : piece bool) : Prop :=
  (exists lo hi, x = Plain (XPort (FPort 0 10 [(0, 1, true)]) lo hi)) \/ x = Block (FProc [(9, EKPos)] sq_body) \/ exists b s lo hi, x = Register b s lo hi.
Lemma sq_step x y : sq_a x -> (forall b s lo hi, x <> Register b s lo hi) -> PFeeds false true (fun _ => 1%Z) [] x y -> valid_piece false true sq_ports [] sq_procs y -> sq_a y.
Proof.
  intros Px Nr F Va. destruct Px as [(lo & hi & ->)|[->|(b & s & lo & hi & ->)]]; [| |destruct (Nr _ _ _ _ eq_refl)].
  - destruct F as [(s & i & Wr & Rd)|[(z & [=] & _)|[(b & [=] & _)|(b & s & l & k & [=] & _)]]].
    cbn [piece_writes item_writes] in Wr. destruct Wr as [(-> & _)|(c & k & [] & _)]. destruct y as [[p a c|a a0 c|]|b|b t a c]; [| | |destruct Va as [<-|[<-|[]]]|].
    + exfalso. cbn in Rd. destruct Rd as [(E & _ & a' & c' & J & _)|(c' & k & [] & _)]. destruct Va as (Ip & _). cbn in Ip. each Ip; cbn in E, J; destruct J as [J|[]]; try discriminate J; lia.
    + destruct Va as ([] & _).
    + destruct Rd.
    + exfalso. cbn in Rd. intuition discriminate.
    + right. now left.
    + right. right. eauto.
  - destruct F as [(s & i & [Wr _] & _)|[(z & [=] & _)|[(b & [= <-] & ->)|(b & s & l & k & [= <-] & ->)]]]; [discriminate Wr|right; now left|right; right; eauto].
Qed.
Example sq_cut : forall s nl n cone lo hi m a c, pflow false true no_h (fun _ => []) sq_ports (fun _ => 1%Z) [] [] sq_procs = Some (s, nl) ->
  getCombFanIn nl n = Some cone -> In (n, BPort 3 (zrange lo hi)) (bnodes (fb s)) -> In (m, BPort 0 (zrange a c)) (bnodes (fb s)) -> ~ In m cone.
Proof.
  intros s nl n cone lo hi m a c E C Nn Nm Im. destruct sq_apart as (O & Np & Ba).
  assert (K : PConnected false true (fun _ => 1%Z) sq_ports [] [] sq_procs (Plain (XPort (FPort 0 10 [(0, 1, true)]) a c)) (Plain (XPort (FPort 3 13 [(0, 1, false)]) lo hi))).
  { refine (c129_cone_connected false true no_h (fun _ => []) (fun _ => 1%Z) sq_ports [] [] sq_procs sq_wf O Np Ba _ s nl n cone E C (FPort 3 13 [(0, 1, false)]) lo hi (FPort 0 10 [(0, 1, true)]) a c m _ _ Nn Im Nm); [intros; lia|cbn; auto 10|cbn; auto]. }
  assert (Inv : forall x z, PConnected false true (fun _ => 1%Z) sq_ports [] [] sq_procs x z -> sq_a x -> sq_a z).
  { induction 1 as [x|x y z F Va Nr Cn IH]; intros Px; [exact Px|]. apply IH. exact (sq_step x y Px Nr F Va). }
  destruct (Inv _ _ K) as [(? & ? & Q)|[Q|(? & ? & ? & ? & Q)]]; [left; eauto|discriminate Q|discriminate Q|discriminate Q].
Qed.
(** The State nodes of [sq_cones] are the registers [r] and [q]; the cone of [q] has the
    input c, which is connected to it. *)
Example sq_reaches : exists r, PConnected false true (fun _ => 1%Z) sq_ports [] [] sq_procs (Plain (XPort (FPort 2 12 [(0, 0, true)]) 0 0)) (Register r 15 0 1).
Proof.
  exists (FProc [(9, EKPos)] sq_body). apply (pc_step _ _ _ _ _ _ _ _ (Block (FProc [(9, EKPos)] sq_body))); [|cbn; auto|discriminate|].
  - left. exists 12, 0. split; [left; split; [reflexivity|]; split; [lia|]; exists 0, 0; cbn; split; [now left|lia]|cbn; tauto].
  - apply (pc_step _ _ _ _ _ _ _ _ (Register (FProc [(9, EKPos)] sq_body) 15 0 1)); [|cbn|discriminate|constructor].
    + right. right. right. eauto 6.
    + split; [auto|]. split; [discriminate|]. split; [lia|]. intros i L. assert (i = 0 \/ i = 1) as [->| ->] by lia; cbn; tauto.
Qed.

(** * A variable that several blocks write *)
(** logic [7:0] w; always @* w = a; always @* w[3] = b; always @* w[2:0] = c; assign y = w[7];
    Splitting the interval of [w] leaves the same list of drivers on both sides, as in
    [c111_two_drivers_refuted]: c is in the fan-in cone of y. *)
Notation mb_c := (FProc [] (PAsg true (bits_of 14 0 2) (bits_of 12 0 2))).
Notation mb_procs := [FProc [] (PAsg true (bits_of 14 0 7) (bits_of 10 0 7)); FProc [] (PAsg true (bits_of 14 3 3) (bits_of 11 0 0)); mb_c].
Notation mb_asgs := ([FAsg (bits_of 13 0 0) (bits_of 14 7 7)] : list (fasg bool)).
Lemma mb_wf : wf_design false true no_h md_ports [] mb_asgs /\ one_driver md_ports [] mb_asgs /\ no_port_names md_ports mb_asgs.
Proof.
  destruct md_wf as [A1 A2 A3 A4 A5 A6 A7 A8 A9]. split; [|split].
  - split; auto; intros a I; [apply A5|apply A6]; cbn in I |- *; tauto.
  - unfold one_driver. cbn. repeat constructor; cbn; intuition congruence.
  - intros a s i p I. apply md_names. cbn in I |- *. tauto.
Qed.
Lemma mb_shape : forall x, In x mb_procs -> block_shape false true no_h md_ports x.
Proof. intros x [<-|[<-|[<-|[]]]]; (split; [cbn [pr_body]; bstmt_tac|aligned_tac|names_tac|clocks_tac]). Qed.
Lemma mb_driven : forall x s i, In x mb_procs -> may (pr_body x) s i -> ~ In (s, i) (all_driven md_ports [] mb_asgs).
Proof. intros x s i [<-|[<-|[<-|[]]]] M I; apart_tac M I. Qed.
Definition mb_reach (x : piece bool) : Prop :=
  (exists lo hi, x = Plain (XPort (FPort 2 12 [(0, 2, true)]) lo hi)) \/ x = Block mb_c.
Lemma mb_step x y : mb_reach x -> PFeeds false true (fun _ => 1%Z) [] x y -> valid_piece false true md_ports mb_asgs mb_procs y -> mb_reach y.
Proof.
  intros Px F Va. destruct F as [(s & i & Wr & Rd)|[(z & -> & _)|[(b & -> & ->)|(b & s & l & k & -> & ->)]]].
  2: { destruct Px as [(? & ? & [=])|[=]]. }
  2: { exact Px. }
  2: { destruct Px as [(? & ? & [=])|[= ->]]. destruct Va as (_ & Q & _). destruct Q. reflexivity. }
  assert (Q : s = 12 \/ (s = 14 /\ i <= 2)).
  { destruct Px as [(lo & hi & ->)| ->]; cbn in Wr.
    - destruct Wr as [(E & _)|(c & k & [] & _)]. now left.
    - right. destruct Wr as [_ Wr]. repeat (destruct Wr as [Wr|Wr]; [injection Wr as <- <-; lia|]). destruct Wr. }
  destruct y as [[p a c|a a0 c|]|b|b t a c].
  - exfalso. cbn in Rd. destruct Rd as [(E & _ & a' & c' & J & _)|(c' & k & [] & _)]. destruct Va as (Ip & _). cbn in Ip. each Ip; cbn in E, J; destruct J as [J|[]]; try discriminate J; lia.
  - exfalso. destruct Va as ([<-|[]] & _). destruct Rd as (k & _ & at_ & J & R). cbn [fa_rhs] in J.
    repeat (destruct k as [|k]; [cbn in J; destruct J as [<-|[]]; cbn in R; destruct R as [R|[]]; injection R as <- <-; lia|]); cbn in J; destruct k; destruct J.
  - destruct Rd.
  - destruct Va as [<-|[<-|[<-|[]]]]; [exfalso; cbn in Rd; intuition congruence|exfalso; cbn in Rd; intuition congruence|now right].
  - exfalso. destruct Va as ([<-|[<-|[<-|[]]]] & Q' & _); now destruct Q'.
Qed.
(** Everything of [blocks_apart] but [ba_one] holds. *)
Theorem c130_two_blocks_refuted :
  wf_design false true no_h md_ports [] mb_asgs /\ one_driver md_ports [] mb_asgs /\ no_port_names md_ports mb_asgs /\
  NoDup mb_procs /\ (forall x, In x mb_procs -> block_shape false true no_h md_ports x) /\
  (forall x s i, In x mb_procs -> may (pr_body x) s i -> ~ In (s, i) (all_driven md_ports [] mb_asgs)) /\
  ~ pcones_connected false true no_h (fun _ => []) (fun _ => 1%Z) md_ports [] mb_asgs mb_procs.
Proof.
  destruct mb_wf as (W & O & N). split; [exact W|]. split; [exact O|]. split; [exact N|]. split; [repeat constructor; cbn; intuition discriminate|].
  split; [exact mb_shape|]. split; [exact mb_driven|]. intros H.
  assert (B : match pflow false true no_h (fun _ => []) md_ports (fun _ => 1%Z) [] mb_asgs mb_procs with
    | Some (s, nl) => (match getCombFanIn nl 3 with Some l => existsb (Nat.eqb 2) l | None => false end) = true /\
        bnodes (fb s) = [(0, BPort 0 (zrange 0 7)); (1, BPort 1 (zrange 0 0)); (2, BPort 2 (zrange 0 2)); (3, BPort 3 (zrange 0 0))]
    | None => False end).
  { vm_compute. repeat split. }
  destruct (pflow false true no_h (fun _ => []) md_ports (fun _ => 1%Z) [] mb_asgs mb_procs) as [[s nl]|] eqn:E; [|destruct B]. destruct B as (C & Nd).
  destruct (getCombFanIn nl 3) as [cone|] eqn:Ec; [|discriminate]. apply existsb_exists in C. destruct C as (m & Im & Em). apply Nat.eqb_eq in Em. subst m.
  assert (K : PConnected false true (fun _ => 1%Z) md_ports [] mb_asgs mb_procs (Plain (XPort (FPort 2 12 [(0, 2, true)]) 0 2)) (Plain (XPort (FPort 3 13 [(0, 0, false)]) 0 0))).
  { apply (H s nl 3 cone E Ec) with (m := 2); rewrite ?Nd; cbn; auto 10. }
  assert (Inv : forall x z, PConnected false true (fun _ => 1%Z) md_ports [] mb_asgs mb_procs x z -> mb_reach x -> mb_reach z).
  { induction 1 as [x|x y z F Va Nr Cn IH]; intros Px; [exact Px|]. apply IH. exact (mb_step x y Px F Va). }
  destruct (Inv _ _ K) as [(? & ? & Q)|Q]; [left; eauto|discriminate Q|discriminate Q].
Qed.
Print Assumptions c130_two_blocks_refuted.
