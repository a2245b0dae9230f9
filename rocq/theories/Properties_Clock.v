(** C135-C137: the sensitivity query on the netlist of a design says what clocks its
    registers. *)
From Verif Require Import Base M_Graph M_Range M_Netlist M_DFS M_Path M_Annot M_Interval M_Heap M_Drivers M_Pending M_DFA M_Builder M_Slice M_Port M_Flow M_Proc M_Query
  S_Graph S_Reach S_Netlist S_Annot S_Pending S_DFA S_Slice S_Port S_Flow S_Proc S_Prec S_Prec2 S_Total S_Clock P_Prec8 P_Clock
  Properties_Flow Properties_Prec Properties_Proc Properties_Seq Properties_Prec2 Properties_Total.

(** * C135 *)
Theorem c135_events : forall {V} (vz : V) rb h nm width ports conns asgs procs,
  wf_design vz rb h ports conns asgs -> one_driver ports conns asgs -> no_port_names ports asgs -> blocks_apart vz rb h ports conns asgs procs ->
  (forall s, 0 <= width s)%Z -> forall s nl, pflow vz rb h nm ports width conns asgs procs = Some (s, nl) ->
  exists role, (pieces vz rb width ports conns asgs procs (bnodes (fb s)) nl role /\ pannotates vz rb width conns nm nl role) /\
    events_right rb width conns nl role /\ events_found rb width conns nl role /\ events_divided rb width conns nl role.
Proof. intros V vz rb h nm width ports conns asgs procs W O N B Wd. exact (clocks_sound vz rb h nm width ports conns asgs procs W O N B Wd). Qed.
Print Assumptions c135_events.

(** The design of [sq_apart]: both registers are clocked by the port [clk], node 4. *)
Example sq_events : match pflow false true no_h unary sq_ports (fun _ => 1%Z) [] [] sq_procs with
  | Some (s, nl) => filter (fun n => match nkind (ninf nl n) with KState => true | _ => false end) (gnodes (ng nl)) = [10; 11] /\
      getSensitivity nl 10 = Some [(4, EKPos)] /\ getSensitivity nl 11 = Some [(4, EKPos)]
  | None => False end.
Proof. vm_compute. repeat split. Qed.
(** always @(posedge clk) div <= a[0];  always @(posedge div) r <= b;
    The second register is clocked by the first. *)
Notation dv_procs := [FProc [(9, EKPos)] (PAsg false (bits_of 16 0 0) (bits_of 10 0 0)); FProc [(16, EKPos)] (PAsg false (bits_of 14 0 1) (bits_of 11 0 1))].
Lemma dv_apart : blocks_apart false true no_h sq_ports [] [] dv_procs.
Proof.
  split.
  - repeat constructor; cbn; intuition discriminate.
  - intros x [<-|[<-|[]]]; (split; [cbn [pr_body]; bstmt_tac|aligned_tac|names_tac|clocks_tac]).
  - intros x s i [<-|[<-|[]]] M I; apart_tac M I.
  - intros x y s i [<-|[<-|[]]] [<-|[<-|[]]] M1 M2; try reflexivity; exfalso; apart_tac M1 M2.
Qed.
Example dv_events : match pflow false true no_h unary sq_ports (fun _ => 1%Z) [] [] dv_procs with
  | Some (s, nl) => filter (fun n => match nkind (ninf nl n) with KState => true | _ => false end) (gnodes (ng nl)) = [6; 8] /\
      getSensitivity nl 6 = Some [(4, EKPos)] /\ getSensitivity nl 8 = Some [(6, EKPos)]
  | None => False end.
Proof. vm_compute. repeat split. Qed.

(** * C136 *)
(** Every event of a block's event list is reported for its registers. *)
Definition all_events {V} (vz : V) rb h nm width ports conns asgs procs : Prop :=
  forall s nl, pflow vz rb h nm ports width conns asgs procs = Some (s, nl) ->
  exists role, pieces vz rb width ports conns asgs procs (bnodes (fb s)) nl role /\
    forall n x t lo hi m k, hasNode (ng nl) n = true -> role n = Register x t lo hi -> hasNode (ng nl) m = true -> clocks_block rb width conns (role m) x k -> k <> EKNone ->
    exists res, getSensitivity nl n = Some res /\ In (m, k) res.
(** always @(posedge clk or negedge clk) r <= a;
    The second event finds the edge that the first one made, extends its annotation by
    nothing and overwrites its kind (NetlistBuilder.cpp 73-106, NetlistEdge.hpp 28-53). *)
Notation ev_procs := [FProc [(9, EKPos); (9, EKNeg)] (PAsg false (bits_of 14 0 1) (bits_of 10 0 1))].
Lemma ev_apart : blocks_apart false true no_h sq_ports [] [] ev_procs.
Proof.
  split.
  - repeat constructor; cbn; intuition discriminate.
  - intros x [<-|[]]. split; [cbn [pr_body]; bstmt_tac|aligned_tac|names_tac|clocks_tac].
  - intros x s i [<-|[]] M I; apart_tac M I.
  - intros x y s i [<-|[]] [<-|[]] M1 M2; reflexivity.
Qed.
Theorem c136_event_lost_refuted :
  wf_design false true no_h sq_ports [] [] /\ one_driver sq_ports ([] : list (fconn bool)) [] /\ no_port_names sq_ports ([] : list (fasg bool)) /\
  blocks_apart false true no_h sq_ports [] [] ev_procs /\ ~ all_events false true no_h unary (fun _ => 1%Z) sq_ports [] [] ev_procs.
Proof.
  destruct sq_apart as (O & N & _). split; [exact sq_wf|]. split; [exact O|]. split; [exact N|]. split; [exact ev_apart|]. intros H.
  assert (B : match pflow false true no_h unary sq_ports (fun _ => 1%Z) [] [] ev_procs with
    | Some (s, nl) => (hasNode (ng nl) 6 = true /\ nkind (ninf nl 6) = KState) /\ In (4, BPort 4 (zrange 0 0)) (bnodes (fb s)) /\ getSensitivity nl 6 = Some [(4, EKNeg)]
    | None => False end) by (vm_compute; auto 10).
  unfold all_events in H. destruct (pflow false true no_h unary sq_ports (fun _ => 1%Z) [] [] ev_procs) as [[s nl]|]; [|destruct B].
  destruct B as ((B1 & B2) & B3 & B4). destruct (H s nl eq_refl) as (role & P & Q).
  apply (pi_state _ _ _ _ _ _ _ _ _ _ P 6 B1) in B2. destruct B2 as (x & t & lo & hi & R).
  pose proof (pi_valid _ _ _ _ _ _ _ _ _ _ P 6 B1) as V6. rewrite R in V6. destruct V6 as ([<-|[]] & _).
  apply (pi_port _ _ _ _ _ _ _ _ _ _ P 4 (FPort 4 9 [(0, 0, true)]) 0 0) in B3; [|cbn; auto 10]. destruct B3 as [H4 R4].
  destruct (Q 6 _ t lo hi 4 EKPos B1 R H4) as (res & E & I); [|discriminate|].
  - exists 9, 0. split; [now left|]. split; [|lia]. rewrite R4. left. split; [reflexivity|]. split; [lia|]. exists 0, 0. cbn. split; [now left|lia].
  - rewrite B4 in E. injection E as <-. destruct I as [I|[]]. discriminate I.
Qed.
Print Assumptions c136_event_lost_refuted.
(** assign {clk2, rst2} = a; always @(posedge clk2 or negedge rst2) r <= b;
    With --no-resolve-assign-bits the assignment is one node, and the edge from it keeps the
    last event only. *)
Example ev_concat : match pflow false false no_h unary sq_ports (fun _ => 1%Z) [] [FAsg (EConcat 2 [bits_of 16 0 0; bits_of 17 0 0]) (bits_of 10 0 1)]
    [FProc [(16, EKPos); (17, EKNeg)] (PAsg false (bits_of 14 0 1) (bits_of 11 0 1))] with
  | Some (s, nl) => map (getSensitivity nl) (filter (fun n => match nkind (ninf nl n) with KState => true | _ => false end) (gnodes (ng nl))) = [Some [(5, EKNeg)]]
  | None => False end.
Proof. vm_compute. reflexivity. Qed.

(** * C137 *)
(** A register that holds some bits of a clock is reported. *)
Definition divided_events {V} (vz : V) rb h nm width ports conns asgs procs : Prop :=
  forall s nl, pflow vz rb h nm ports width conns asgs procs = Some (s, nl) ->
  exists role, pieces vz rb width ports conns asgs procs (bnodes (fb s)) nl role /\
    forall n x t lo hi m y u a c k, hasNode (ng nl) n = true -> role n = Register x t lo hi -> hasNode (ng nl) m = true -> role m = Register y u a c -> (Z.of_nat c < width u)%Z ->
    In (u, k) (pr_sens x) -> k <> EKNone -> (forall k', clocks_block rb width conns (role m) x k' -> k' = k) ->
    exists res m', getSensitivity nl n = Some res /\ In (m', k) res /\ role m' = role m.
(** logic [1:0] cnt; always @(posedge clk) begin cnt[0] <= a[0]; cnt[1] <= a[1]; end
    always @(posedge cnt) r <= b;
    The clock is looked up as cnt[1:0]; the registers are known as cnt[0] and cnt[1] and are
    not in the driver map (PendingRvalueQueue.cpp 62-99), so r has no clock at all. *)
Definition ct_width (s : nat) : Z := if Nat.eqb s 16 then 2%Z else 1%Z.
Notation ct_procs := [FProc [(9, EKPos)] (PSeq (PAsg false (bits_of 16 0 0) (bits_of 10 0 0)) (PAsg false (bits_of 16 1 1) (bits_of 10 1 1)));
  FProc [(16, EKPos)] (PAsg false (bits_of 14 0 1) (bits_of 11 0 1))].
Lemma ct_apart : blocks_apart false true no_h sq_ports [] [] ct_procs.
Proof.
  split.
  - repeat constructor; cbn; intuition discriminate.
  - intros x [<-|[<-|[]]]; (split; [cbn [pr_body]; bstmt_tac|aligned_tac|names_tac|clocks_tac]).
  - intros x s i [<-|[<-|[]]] M I; apart_tac M I.
  - intros x y s i [<-|[<-|[]]] [<-|[<-|[]]] M1 M2; try reflexivity; exfalso; apart_tac M1 M2.
Qed.
Definition joined (nl : netlist) (a b : nat) : bool := existsb (fun e => Nat.eqb (etgt e) b && negb (adis (eatt nl (eid e)))) (outs (nst (ng nl) a)).
Lemma joined_conn nl a b : joined nl a b = true -> Conn nl a b.
Proof. intros H. apply existsb_exists in H. destruct H as (e & I & H). apply andb_prop in H. destruct H as [H1 H2]. exists e. split; [exact I|]. split; [now apply Nat.eqb_eq|]. now destruct (adis _). Qed.
Theorem c137_part_refuted :
  wf_design false true no_h sq_ports [] [] /\ one_driver sq_ports ([] : list (fconn bool)) [] /\ no_port_names sq_ports ([] : list (fasg bool)) /\
  blocks_apart false true no_h sq_ports [] [] ct_procs /\ ~ divided_events false true no_h unary ct_width sq_ports [] [] ct_procs.
Proof.
  destruct sq_apart as (O & N & _). split; [exact sq_wf|]. split; [exact O|]. split; [exact N|]. split; [exact ct_apart|]. intros H.
  assert (B : match pflow false true no_h unary sq_ports ct_width [] [] ct_procs with
    | Some (s, nl) => ((nkind (ninf nl 7) = KState /\ nkind (ninf nl 10) = KState) /\ In (4, BPort 4 (zrange 0 0)) (bnodes (fb s)) /\ In (1, BPort 1 (zrange 0 1)) (bnodes (fb s))) /\
        (joined nl 4 7 = true /\ joined nl 1 9 = true /\ joined nl 9 10 = true) /\ getSensitivity nl 10 = Some []
    | None => False end) by (vm_compute; auto 20).
  unfold divided_events in H. destruct (pflow false true no_h unary sq_ports ct_width [] [] ct_procs) as [[s nl]|]; [|destruct B].
  destruct B as (((K7 & K10) & P4 & P1) & (C1 & C2 & C3) & G). destruct (H s nl eq_refl) as (role & P & Q).
  apply joined_conn, (pi_conn _ _ _ _ _ _ _ _ _ _ P) in C1, C2, C3. destruct C1 as (_ & H7 & F1), C2 as (_ & H9 & F2), C3 as (_ & H10 & F3).
  apply (pi_state _ _ _ _ _ _ _ _ _ _ P _ H7) in K7. apply (pi_state _ _ _ _ _ _ _ _ _ _ P _ H10) in K10.
  destruct K7 as (y & u & a & c & R7), K10 as (x & t & lo & hi & R10).
  apply (pi_port _ _ _ _ _ _ _ _ _ _ P 4 (FPort 4 9 [(0, 0, true)]) 0 0) in P4; [|cbn; auto 10]. apply (pi_port _ _ _ _ _ _ _ _ _ _ P 1 (FPort 1 11 [(0, 1, true)]) 0 1) in P1; [|cbn; auto 10].
  destruct P4 as [_ R4], P1 as [_ R1]. pose proof (pi_valid _ _ _ _ _ _ _ _ _ _ P _ H7) as V7. pose proof (pi_valid _ _ _ _ _ _ _ _ _ _ P _ H9) as V9. pose proof (pi_valid _ _ _ _ _ _ _ _ _ _ P _ H10) as V10.
  rewrite R4, R7 in F1. rewrite R1 in F2. rewrite R10 in F3. rewrite R7 in V7. rewrite R10 in V10. destruct V7 as (I7 & _ & L7 & M7), V10 as (I10 & _).
  assert (Wp : forall p a b s i, item_writes true ([] : list (fconn bool)) (XPort p a b) s i -> s = fp_sy p) by (intros p a' b' s' i' [(E & _)|(? & ? & [] & _)]; exact E).
  (* node 7 holds bits of cnt *)
  assert (E7 : y = FProc [(9, EKPos)] (PSeq (PAsg false (bits_of 16 0 0) (bits_of 10 0 0)) (PAsg false (bits_of 16 1 1) (bits_of 10 1 1)))).
  { destruct F1 as [(s' & i & Wr & Rd)|[(z & [=] & _)|[(b & [=] & _)|(b & s' & l & k & [=] & _)]]]. apply Wp in Wr. cbn in Wr. subst s'.
    destruct I7 as [<-|[<-|[]]]; [reflexivity|]. cbn in Rd. intuition discriminate. }
  subst y. assert (Eu : u = 16 /\ c <= 1).
  { pose proof (M7 a ltac:(lia)) as Ma. pose proof (M7 c ltac:(lia)) as Mc. cbn in Ma, Mc. intuition (try congruence); match goal with E : (_, _) = (_, _) |- _ => injection E; lia end. }
  destruct Eu as [-> Lc].
  (* node 10 is the register of the second block *)
  assert (E10 : x = FProc [(16, EKPos)] (PAsg false (bits_of 14 0 1) (bits_of 11 0 1))).
  { assert (R9 : role 9 = Block (FProc [(16, EKPos)] (PAsg false (bits_of 14 0 1) (bits_of 11 0 1)))).
    { destruct F2 as [(s' & i & Wr & Rd)|[(z & [=] & _)|[(b & [=] & _)|(b & s' & l & k & [=] & _)]]]. apply Wp in Wr. cbn in Wr. subst s'.
      destruct (role 9) as [[p a' c'|a' a0 c'|]|y|y u lo' hi']; cbn in Rd, V9.
      - destruct Rd as [(E & _ & l & k & I & _)|(? & ? & [] & _)]. destruct V9 as (Ip & _). each Ip; cbn in *; try discriminate E. exfalso. destruct I as [I|[]]. discriminate I.
      - destruct V9 as ([] & _).
      - destruct Rd.
      - destruct V9 as [<-|[<-|[]]]; [|reflexivity]. cbn in Rd. intuition congruence.
      - destruct V9 as ([<-|[<-|[]]] & _); cbn in Rd; intuition discriminate. }
    rewrite R9 in F3. destruct F3 as [(s' & i & [Wr _] & _)|[(z & [=] & _)|[(b & _ & [=])|(b & s' & l & k & E1 & E2)]]]; [discriminate Wr|]. congruence. }
  subst x. destruct (Q 10 _ t lo hi 7 _ 16 a c EKPos H10 R10 H7 R7) as (res & m' & E & I & _).
  - cbn. lia.
  - now left.
  - discriminate.
  - intros k' (v & j & Iv & _). destruct Iv as [[= <- <-]|[]]. reflexivity.
  - rewrite G in E. injection E as <-. destruct I.
Qed.
Print Assumptions c137_part_refuted.
