(** C99, C100: from the source text of a design to the answer of a query. *)
From Verif Require Import Base M_Graph M_Range M_Netlist M_DFS M_Path M_Annot M_Interval M_Heap M_Drivers M_Pending M_DFA M_Builder M_Slice M_Port M_Flow
  S_Graph S_Reach S_Netlist S_Slice S_Port S_Flow P_Flow5 P_Flow6 P_Flow8.

(** For every design of ports, connections and continuous assignments: the values of a
    port are determined by the values of the unconnected input ports in its combinational
    fan-in cone (and of the bits that nothing drives), if the cone has no cycle.  Both
    with and without resolveAssignBits, with any recorded cuts. *)
Theorem c99_cone_determines : forall {V} (vz : V) rb h nm ports conns asgs,
  wf_design vz rb h ports conns asgs ->
  forall s nl q n lo hi cone,
  flow vz rb h nm ports conns asgs = Some (s, nl) -> In q ports -> In (n, BPort (fp_id q) (zrange lo hi)) (bnodes (fb s)) ->
  getCombFanIn nl n = Some cone -> (forall m, In m cone -> ~ Reach1 (CombBack nl) m m) ->
  forall v1 v2, settled vz conns asgs v1 -> settled vz conns asgs v2 -> agree_undriven ports conns asgs v1 v2 ->
  (forall p m a c i, free_input ports conns p i -> In m cone -> In (m, BPort (fp_id p) (zrange a c)) (bnodes (fb s)) -> a <= i <= c ->
     v1 (fp_sy p) i = v2 (fp_sy p) i) ->
  forall i, lo <= i <= hi -> v1 (fp_sy q) i = v2 (fp_sy q) i.
Proof. exact @cone_determines. Qed.
Print Assumptions c99_cone_determines.

(** Building never fails, and every bit of a driver of a port has a node. *)
Theorem c99_built : forall {V} (vz : V) rb h nm ports conns asgs, wf_design vz rb h ports conns asgs ->
  exists s, flow_state vz rb h nm ports conns asgs = DOk s /\
    forall p a c x i, In p ports -> In (a, c, x) (fp_drivers p) -> a <= i <= c ->
      exists n lo hi, In (n, BPort (fp_id p) (zrange lo hi)) (bnodes (fb s)) /\ lo <= i <= hi.
Proof.
  intros V vz rb h nm ports conns asgs W. destruct (state_built vz rb h nm ports conns asgs W (fun _ _ => False)) as (b1 & ops & s & E & Pm & G & _); [intros p k _ []|].
  exists s. split; [exact E|]. intros p a c x i Ip I L. destruct (pm_cover _ _ _ _ Pm p a c x i Ip I L) as (n & lo & hi & N & K).
  exists n, lo, hi. split; [apply (g_old _ _ G), N|exact K].
Qed.
Print Assumptions c99_built.

(** * A design with an instance *)
(** module child(input [3:0] i, output [3:0] o); assign o = {i[1:0], i[3:2]}; endmodule
    module top(input [3:0] a, output [1:0] y, output [1:0] z);
      logic [1:0] w, x; child u(.i(a), .o({x, w})); assign y = w; assign z = x; endmodule
    Symbols: a 10, y 11, i 12, o 13, w 14, z 15, x 16; the connection cuts o at bit 2. *)
Definition sel s a b : path := Path (Some s) a b.
Definition bits_of s a b : expr bool := ELsp (sel s a b) (b + 1 - a).
Definition ex_h : hints := fun s => if Nat.eqb s 13 then Some [2] else None.
Definition ex_ports := [FPort 0 10 [(0, 3, true)]; FPort 1 11 [(0, 1, false)]; FPort 2 12 [(0, 3, true)]; FPort 3 13 [(0, 3, false)];
                        FPort 4 15 [(0, 1, false)]].
Definition ex_conns : list (fconn bool) :=
  [FConn 2 12 4 false (bits_of 10 0 3); FConn 3 13 4 true (EConcat 4 [bits_of 16 0 1; bits_of 14 0 1])].
Definition ex_asgs : list (fasg bool) :=
  [FAsg (bits_of 13 0 3) (EConcat 4 [bits_of 12 0 1; bits_of 12 2 3]);
   FAsg (bits_of 11 0 1) (bits_of 14 0 1); FAsg (bits_of 15 0 1) (bits_of 16 0 1)].

Ltac each I := repeat (destruct I as [<-|I]); try (destruct I).
Ltac pick := eexists _, _, _; split; [left; reflexivity|cbn; lia].
Example ex_wf : wf_design false true ex_h ex_ports ex_conns ex_asgs.
Proof.
  assert (Rd : forall e : expr bool, e = bits_of 14 0 1 \/ e = bits_of 16 0 1 \/ e = bits_of 10 0 3 \/ e = EConcat 4 [bits_of 12 0 1; bits_of 12 2 3] ->
    readable false true ex_ports e /\ forall k x, In (AOpq x) (nth k (bits false e) []) -> flat x).
  { intros e [ -> |[ -> |[ -> | -> ]]].
    all: (split; [split; [cbn; repeat split; lia|split]|]).
    all: try (intros s i p I J; cbn in I, J; each J; cbn; intros ->; repeat (destruct I as [I|I]; [discriminate|]); destruct I).
    all: try (intros _; cbn; repeat split; try lia; try discriminate).
    all: intros k x I; repeat (destruct k as [|k]; [cbn in I; destruct I as [I|[]]; discriminate|]); cbn in I; destruct k; destruct I. }
  split.
  - intros s l. unfold ex_h. destruct (Nat.eqb s 13); [|discriminate]. intros [= <-]. repeat constructor.
  - cbn. repeat constructor; cbn; lia.
  - cbn. repeat constructor; cbn; lia.
  - intros p I. cbn in I. each I.
    all: (split; [intros lo hi x [[= <- <- <-]|[]]; lia|]; intros l lo hi x l' lo' hi' x' l'' E; cbn in E; destruct l as [|? l]; [destruct l'; discriminate|destruct l; discriminate]).
  - intros a I. cbn in I. each I.
    all: (split; [exact I|]; split; [cbn; repeat split; try lia; discriminate|]; split; [cbn; repeat constructor; cbn; intuition congruence|]; split; [|discriminate]).
    all: intros q p Iq Ip R; cbn in Iq; each Iq; cbn in Ip; each Ip; try discriminate R; pick.
  - intros a I. cbn in I. each I.
    all: match goal with |- readable _ _ _ (fa_rhs ?a) /\ _ => destruct (Rd (fa_rhs a)) as [R1 R2]; [cbn; tauto|split; [exact R1|split; [exact R2|]]] end.
    all: split; [reflexivity|]; intros s i J K; cbn in J, K; repeat (destruct J as [J|J]; [inversion J; subst; repeat (destruct K as [K|K]; [discriminate K|]); destruct K|]); destruct J.
  - intros c I. cbn in I. each I; (split; [cbn; lia|]; split; [reflexivity|]).
    + exists (FPort 2 12 [(0, 3, true)]). split; [cbn; tauto|]. split; [reflexivity|]. split; [reflexivity|]. intros lo hi x [[= <- <- <-]|[]]. cbn. lia.
    + exists (FPort 3 13 [(0, 3, false)]). split; [cbn; tauto|]. split; [reflexivity|]. split; [reflexivity|]. intros lo hi x [[= <- <- <-]|[]]. cbn. lia.
  - intros c I O. cbn in I. each I; try discriminate O. apply Rd. cbn. tauto.
  - intros c I O. cbn in I. each I; try discriminate O. split; [cbn; tauto|]. split; [cbn; repeat split; try lia; discriminate|]. split.
    + intros q p Iq Ip R. cbn in Iq. each Iq; cbn in Ip; each Ip; discriminate R.
    + intros k s i l E _ Eh _. cbn in E. repeat (destruct k as [|k]; [cbn in E; injection E as <- <-; discriminate Eh|]). destruct k; discriminate E.
Qed.

Definition ex_result := flow false true ex_h (fun _ => []) ex_ports ex_conns ex_asgs.
Definition cone_of {A} (r : option (A * netlist)) (n : nat) : option (list nat) := match r with Some (_, nl) => getCombFanIn nl n | None => None end.
(** The cone of each output, and the node of the cut that it goes through. *)
Example ex_cones : cone_of ex_result 1 = Some [1; 8; 3; 6; 2; 0] /\ cone_of ex_result 5 = Some [5; 9; 4; 7; 2; 0].
Proof. vm_compute. split; reflexivity. Qed.

Lemma flow_WF {V} (vz : V) rb h nm ports conns asgs s nl : flow vz rb h nm ports conns asgs = Some (s, nl) -> WF nl.
Proof. exact (flow_wf vz rb h nm ports conns asgs s nl). Qed.

(** So the input determines the output. *)
Example ex_determined : forall v1 v2, settled false ex_conns ex_asgs v1 -> settled false ex_conns ex_asgs v2 ->
  agree_undriven ex_ports ex_conns ex_asgs v1 v2 -> (forall i, i <= 3 -> v1 10 i = v2 10 i) -> forall i, i <= 1 -> v1 11 i = v2 11 i.
Proof.
  intros v1 v2 S1 S2 U A.
  assert (B : match flow false true ex_h (fun _ => []) ex_ports ex_conns ex_asgs with
    | Some (s, nl) => getCombFanIn nl 1 = Some [1; 8; 3; 6; 2; 0] /\
        ranked nl (fun n => nth n [0; 5; 1; 3; 0; 0; 2; 0; 4] 0) [1; 8; 3; 6; 2; 0] = true /\ nth_error (bnodes (fb s)) 1 = Some (1, BPort 1 (zrange 0 1))
    | None => False end).
  { vm_compute. repeat split. }
  destruct (flow false true ex_h (fun _ => []) ex_ports ex_conns ex_asgs) as [[s nl]|] eqn:E; [|destruct B]. destruct B as (C & R & N). intros i L.
  pose proof (c99_cone_determines false true ex_h (fun _ => []) ex_ports ex_conns ex_asgs ex_wf s nl (FPort 1 11 [(0, 1, false)]) 1 0 1 [1; 8; 3; 6; 2; 0] E) as T.
  cbn [fp_id fp_sy] in T. apply (T (or_intror (or_introl eq_refl)) (nth_error_In _ _ N) C (ranked_acyclic nl 1 _ _ (flow_WF _ _ _ _ _ _ _ _ _ E) C R) v1 v2 S1 S2 U); [|lia].
  intros p m a c k (Ip & (lo & hi & I & K) & Fr) _ _ _. cbn in Ip. each Ip; cbn in I; destruct I as [I|[]]; try discriminate I.
  - injection I as <- <-. apply A. lia.
  - exfalso. apply (Fr (FConn 2 12 4 false (bits_of 10 0 3))); cbn; auto.
Qed.

(** * Where it fails *)
(** What the theorem says, for one design. *)
Definition cones_determine {V} (vz : V) rb h nm ports conns asgs : Prop :=
  forall s nl q n lo hi cone,
  flow vz rb h nm ports conns asgs = Some (s, nl) -> In q ports -> In (n, BPort (fp_id q) (zrange lo hi)) (bnodes (fb s)) ->
  getCombFanIn nl n = Some cone -> (forall m, In m cone -> ~ Reach1 (CombBack nl) m m) ->
  forall v1 v2, settled vz conns asgs v1 -> settled vz conns asgs v2 -> agree_undriven ports conns asgs v1 v2 ->
  (forall p m a c i, free_input ports conns p i -> In m cone -> In (m, BPort (fp_id p) (zrange a c)) (bnodes (fb s)) -> a <= i <= c ->
     v1 (fp_sy p) i = v2 (fp_sy p) i) ->
  forall i, lo <= i <= hi -> v1 (fp_sy q) i = v2 (fp_sy q) i.

(** module top(input signed [1:0] a, output [1:0] y, output z); assign {z, y} = a; endmodule
    The sign bit is not attributed to [z]: its cone is empty. *)
Definition sg_ports := [FPort 0 10 [(0, 1, true)]; FPort 1 11 [(0, 1, false)]; FPort 2 12 [(0, 0, false)]].
Definition sg_asgs : list (fasg bool) := [FAsg (EConcat 3 [bits_of 12 0 0; bits_of 11 0 1]) (EConv 3 true true true None (bits_of 10 0 1))].
Definition sg_v (s i : nat) : bool := (Nat.eqb s 10 && (i <=? 1)) || (Nat.eqb s 11 && (i <=? 1)) || (Nat.eqb s 12 && (i <=? 0)).
(** All contracts but that on sign extension hold. *)
Theorem c100_signed_refuted :
  wf_design false false (fun _ => None) sg_ports [] sg_asgs /\
  (forall a, In a sg_asgs -> sized false (fa_rhs a) /\ folds_ok false (fa_rhs a) /\ typed (fun _ _ => False) (fa_rhs a)) /\
  ~ cones_determine false true (fun _ => None) (fun _ => []) sg_ports [] sg_asgs.
Proof.
  split; [|split].
  - split.
    + intros s l. discriminate.
    + cbn. repeat constructor; cbn; lia.
    + cbn. repeat constructor; cbn; lia.
    + intros p I. cbn in I. each I.
      all: (split; [intros lo hi x [[= <- <- <-]|[]]; lia|]; intros l lo hi x l' lo' hi' x' l'' E; cbn in E; destruct l as [|? l]; [destruct l'; discriminate|destruct l; discriminate]).
    + intros a I. cbn in I. each I. split; [cbn; tauto|]. split; [cbn; repeat split; try lia; discriminate|]. split; [cbn; repeat constructor; cbn; intuition congruence|].
      split; [|intros _ q s l c _ _ Eh; discriminate Eh]. intros q p Iq Ip R. cbn in Iq. each Iq; cbn in Ip; each Ip; try discriminate R; pick.
    + intros a I. cbn in I. each I. split; [|split; [cbn; tauto|split; [reflexivity|]]].
      * split; [cbn; repeat split; lia|]. split; [|discriminate]. intros s i p I J. cbn in I, J. each J; cbn; intros ->; repeat (destruct I as [I|I]; [discriminate|]); destruct I.
      * intros s i J K. cbn in J, K. repeat (destruct J as [J|J]; [inversion J; subst; repeat (destruct K as [K|K]; [discriminate K|]); destruct K|]). destruct J.
    + intros c [].
    + intros c [].
    + intros c [].
  - intros a I. cbn in I. each I. split; [cbn; repeat split|]. split; [cbn; split; [discriminate|exact Logic.I]|]. cbn. right. repeat split; try lia; discriminate.
  - intros H.
    assert (B : match flow false true (fun _ => None) (fun _ => []) sg_ports [] sg_asgs with
      | Some (s, nl) => getCombFanIn nl 2 = Some [2; 4] /\ ranked nl (fun n => nth n [0; 0; 2; 0; 1] 0) [2; 4] = true /\
          bnodes (fb s) = [(0, BPort 0 (zrange 0 1)); (1, BPort 1 (zrange 0 1)); (2, BPort 2 (zrange 0 0))]
      | None => False end).
    { vm_compute. repeat split. }
    destruct (flow false true (fun _ => None) (fun _ => []) sg_ports [] sg_asgs) as [[s nl]|] eqn:E; [|destruct B]. destruct B as (C & R & N).
    specialize (H s nl (FPort 2 12 [(0, 0, false)]) 2 0 0 [2; 4] E (or_intror (or_intror (or_introl eq_refl)))). rewrite N in H.
    specialize (H (or_intror (or_intror (or_introl eq_refl))) C (ranked_acyclic nl 2 _ _ (flow_WF _ _ _ _ _ _ _ _ _ E) C R) (fun _ _ => false) sg_v).
    cbn [fp_sy] in H. assert (Q : false = true); [|discriminate Q]. apply (H) with (i := 0); [| | | |lia].
    + split; [|intros c []]. intros a I. cbn in I. each I. reflexivity.
    + split; [|intros c []]. intros a I. cbn in I. each I. reflexivity.
    + intros t i Nd. symmetry. unfold sg_v. destruct (Nat.eqb_spec t 10); [|destruct (Nat.eqb_spec t 11); [|destruct (Nat.eqb_spec t 12)]].
      4: reflexivity.
      all: subst; cbn [Nat.eqb andb orb]; rewrite ?orb_false_r; apply Nat.leb_gt, Nat.nle_gt; intros L; apply Nd.
      * apply (driven_port _ _ _ _ _ (FPort 0 10 [(0, 1, true)])); [left; reflexivity|reflexivity|]. exists 0, 1. split; [left; reflexivity|lia].
      * eapply driven_asg; [left; reflexivity|]. cbn. destruct i as [|[|i]]; [auto|auto|lia].
      * eapply driven_asg; [left; reflexivity|]. cbn. destruct i as [|i]; [auto|lia].
    + intros p m a c i Fr Im J _. cbn in Im, J. destruct Im as [<-|[<-|[]]]; destruct J as [J|[J|[J|[]]]]; try discriminate J.
      injection J as J _ _. destruct Fr as (Ip & (lo & hi & Id & _) & _). cbn in Ip. each Ip; try discriminate J.
      cbn in Id. destruct Id as [Id|[]]. discriminate Id.
Qed.
Print Assumptions c100_signed_refuted.

(** module child(input [1:0] i, output [1:0] o); assign o = i; endmodule
    module top(input [1:0] a, output y, output z); child u(.i(a), .o({z, y})); endmodule
    Without resolveAssignBits but with propCutsAcrossPorts: the cut at bit 1 makes two
    nodes of [o], and the assignment of both bits goes to neither.  The cone of [y] misses
    [a]. *)
Definition ct_h : hints := fun s => if Nat.eqb s 14 then Some [1] else None.
Definition ct_ports := [FPort 0 10 [(0, 1, true)]; FPort 1 11 [(0, 0, false)]; FPort 2 12 [(0, 0, false)]; FPort 3 13 [(0, 1, true)]; FPort 4 14 [(0, 1, false)]].
Definition ct_conns : list (fconn bool) := [FConn 3 13 2 false (bits_of 10 0 1); FConn 4 14 2 true (EConcat 2 [bits_of 12 0 0; bits_of 11 0 0])].
Definition ct_asgs : list (fasg bool) := [FAsg (bits_of 14 0 1) (bits_of 13 0 1)].
Definition ct_v (s i : nat) : bool :=
  (Nat.eqb s 10 && (i <=? 1)) || (Nat.eqb s 13 && (i <=? 1)) || (Nat.eqb s 14 && (i <=? 1)) || (Nat.eqb s 11 && (i <=? 0)) || (Nat.eqb s 12 && (i <=? 0)).
Lemma ct_wf : wf_design false true ct_h ct_ports ct_conns ct_asgs.
Proof.
  assert (Rd : forall e : expr bool, e = bits_of 10 0 1 \/ e = bits_of 13 0 1 ->
    readable false true ct_ports e /\ forall k x, In (AOpq x) (nth k (bits false e) []) -> flat x).
  { intros e [ -> | -> ].
    all: (split; [split; [cbn; repeat split; lia|split]|]).
    all: try (intros s i p I J; cbn in I, J; each J; cbn; intros ->; repeat (destruct I as [I|I]; [discriminate|]); destruct I).
    all: try (intros _; cbn; repeat split; try lia; try discriminate).
    all: intros k x I; repeat (destruct k as [|k]; [cbn in I; destruct I as [I|[]]; discriminate|]); cbn in I; destruct k; destruct I. }
  split.
  - intros s l. unfold ct_h. destruct (Nat.eqb s 14); [|discriminate]. intros [= <-]. repeat constructor.
  - cbn. repeat constructor; cbn; lia.
  - cbn. repeat constructor; cbn; lia.
  - intros p I. cbn in I. each I.
    all: (split; [intros lo hi x [[= <- <- <-]|[]]; lia|]; intros l lo hi x l' lo' hi' x' l'' E; cbn in E; destruct l as [|? l]; [destruct l'; discriminate|destruct l; discriminate]).
  - intros a I. cbn in I. each I.
    all: (split; [exact I|]; split; [cbn; repeat split; try lia; discriminate|]; split; [cbn; repeat constructor; cbn; intuition congruence|]; split; [|discriminate]).
    all: intros q p Iq Ip R; cbn in Iq; each Iq; cbn in Ip; each Ip; try discriminate R; pick.
  - intros a I. cbn in I. each I.
    all: match goal with |- readable _ _ _ (fa_rhs ?a) /\ _ => destruct (Rd (fa_rhs a)) as [R1 R2]; [cbn; tauto|split; [exact R1|split; [exact R2|]]] end.
    all: split; [reflexivity|]; intros s i J K; cbn in J, K; repeat (destruct J as [J|J]; [inversion J; subst; repeat (destruct K as [K|K]; [discriminate K|]); destruct K|]); destruct J.
  - intros c I. cbn in I. each I; (split; [cbn; lia|]; split; [reflexivity|]).
    + exists (FPort 3 13 [(0, 1, true)]). split; [cbn; tauto|]. split; [reflexivity|]. split; [reflexivity|]. intros lo hi x [[= <- <- <-]|[]]. cbn. lia.
    + exists (FPort 4 14 [(0, 1, false)]). split; [cbn; tauto|]. split; [reflexivity|]. split; [reflexivity|]. intros lo hi x [[= <- <- <-]|[]]. cbn. lia.
  - intros c I O. cbn in I. each I; try discriminate O. apply Rd. cbn. tauto.
  - intros c I O. cbn in I. each I; try discriminate O. split; [cbn; tauto|]. split; [cbn; repeat split; try lia; discriminate|]. split.
    + intros q p Iq Ip R. cbn in Iq. each Iq; cbn in Ip; each Ip; try discriminate R; pick.
    + intros k s i l E _ Eh _. cbn in E. repeat (destruct k as [|k]; [cbn in E; injection E as <- <-; discriminate Eh|]). destruct k; discriminate E.
Qed.
(** With both options the theorem holds for this design. *)
Theorem c100_cuts_refuted :
  wf_design false true ct_h ct_ports ct_conns ct_asgs /\ ~ cones_determine false false ct_h (fun _ => []) ct_ports ct_conns ct_asgs.
Proof.
  split; [exact ct_wf|]. intros H.
  assert (B : match flow false false ct_h (fun _ => []) ct_ports ct_conns ct_asgs with
    | Some (s, nl) => getCombFanIn nl 1 = Some [1; 4; 5] /\ ranked nl (fun n => nth n [0; 1] 0) [1; 4; 5] = true /\
        bnodes (fb s) = [(0, BPort 0 (zrange 0 1)); (1, BPort 1 (zrange 0 0)); (2, BPort 2 (zrange 0 0)); (3, BPort 3 (zrange 0 1));
                         (4, BPort 4 (zrange 0 0)); (5, BPort 4 (zrange 1 1))]
    | None => False end).
  { vm_compute. repeat split. }
  destruct (flow false false ct_h (fun _ => []) ct_ports ct_conns ct_asgs) as [[s nl]|] eqn:E; [|destruct B]. destruct B as (C & R & N).
  specialize (H s nl (FPort 1 11 [(0, 0, false)]) 1 0 0 [1; 4; 5] E (or_intror (or_introl eq_refl))). rewrite N in H.
  specialize (H (or_intror (or_introl eq_refl)) C (ranked_acyclic nl 1 _ _ (flow_WF _ _ _ _ _ _ _ _ _ E) C R) (fun _ _ => false) ct_v).
  cbn [fp_sy] in H. assert (Q : false = true); [|discriminate Q]. apply (H) with (i := 0); [| | | |lia].
  - split; intros a I; cbn in I; each I; reflexivity.
  - split; intros a I; cbn in I; each I; reflexivity.
  - intros t i Nd. symmetry. unfold ct_v.
    destruct (Nat.eqb_spec t 10); [|destruct (Nat.eqb_spec t 13); [|destruct (Nat.eqb_spec t 14); [|destruct (Nat.eqb_spec t 11); [|destruct (Nat.eqb_spec t 12)]]]].
    6: reflexivity.
    all: subst; cbn [Nat.eqb andb orb]; rewrite ?orb_false_r; apply Nat.leb_gt, Nat.nle_gt; intros L; apply Nd.
    + apply (driven_port _ _ _ _ _ (FPort 0 10 [(0, 1, true)])); [left; reflexivity|reflexivity|]. exists 0, 1. split; [left; reflexivity|lia].
    + apply (driven_port _ _ _ _ _ (FPort 3 13 [(0, 1, true)])); [cbn; tauto|reflexivity|]. exists 0, 1. split; [left; reflexivity|lia].
    + eapply driven_asg; [left; reflexivity|]. cbn. destruct i as [|[|i]]; [auto|auto|lia].
    + eapply driven_conn; [right; left; reflexivity|reflexivity|]. cbn. destruct i as [|i]; [auto|lia].
    + eapply driven_conn; [right; left; reflexivity|reflexivity|]. cbn. destruct i as [|i]; [auto|lia].
  - intros p m a c i Fr Im J _. cbn in Im, J.
    destruct Fr as (Ip & (lo & hi & Id & _) & _). cbn in Ip. each Ip; cbn in Id; destruct Id as [Id|[]]; try discriminate Id; cbn in J.
    all: destruct Im as [<-|[<-|[<-|[]]]]; destruct J as [J|[J|[J|[J|[J|[J|[]]]]]]]; discriminate J.
Qed.
Print Assumptions c100_cuts_refuted.
