(** C144: a flow of bits through a design is found, wherever nodes are cut. *)
From Verif Require Import Base M_Graph M_Range M_Netlist M_DFS M_Path M_Query M_Text M_Annot M_Interval M_Heap M_Drivers M_Pending M_DFA M_Builder M_Slice M_Port M_Inst M_Flow M_Proc
  S_Graph S_Reach S_Netlist S_Annot S_Pending S_Query S_Inst S_Slice S_Port S_Flow S_Proc S_Prec S_Prec2 S_Total S_Drv S_Cuts S_Cuts2 S_Bits P_Cuts P_Bits Properties_Flow Properties_Prec Properties_Exact Properties_Total Properties_Drv Properties_Cuts Properties_Source.

(** If bit [i] of an input port flows to bit [j] of an output port, then the node of the
    output with bit [j] has every node of the input with bit [i] in its cone. *)
Theorem c144_flow_found : forall {V} (vz : V) rb h nm ports conns asgs,
  wf_design vz rb h ports conns asgs -> one_driver ports conns asgs -> no_port_names ports asgs ->
  forall s nl, flow vz rb h nm ports conns asgs = Some (s, nl) ->
  forall p i q j, In p ports -> In q ports -> in_range (fp_drivers p) true i -> in_range (fp_drivers q) false j ->
  flows vz rb ports conns asgs (fp_sy p) i (fp_sy q) j ->
  forall m lo hi n lo' hi', In (m, BPort (fp_id p) (zrange lo hi)) (bnodes (fb s)) -> lo <= i <= hi ->
  In (n, BPort (fp_id q) (zrange lo' hi')) (bnodes (fb s)) -> lo' <= j <= hi' ->
  forall cone, getCombFanIn nl n = Some cone -> In m cone.
Proof.
  intros V vz rb h nm ports conns asgs W O N s nl F p i q j Ip Iq Di Dj Fl m lo hi n lo' hi' Im Li In' Lj cone C.
  destruct (c112_cone_exact vz rb h nm ports conns asgs W O N s nl F) as (role & St & X & K).
  pose proof (st_has _ _ _ _ _ _ _ _ St m p lo hi Ip Im) as Hm. pose proof (st_has _ _ _ _ _ _ _ _ St n q lo' hi' Iq In') as Hn.
  destruct (st_node _ _ _ _ _ _ _ _ St m Hm) as (_ & _ & _ & Rm). apply (Rm p lo hi Ip) in Im.
  destruct (st_node _ _ _ _ _ _ _ _ St n Hn) as (_ & _ & _ & Rn). apply (Rn q lo' hi' Iq) in In'.
  apply (K n cone C m); [rewrite Im; discriminate|].
  apply (flowed vz rb ports conns asgs nl role X) with (s := fp_sy p) (i := i) (t := fp_sy q) (j := j); auto.
  - intros a Ia. destruct (w_lhs _ _ _ _ _ _ W a Ia) as (A & B & _). auto.
  - rewrite Im. left. auto.
  - rewrite In'. left. auto.
Qed.
Print Assumptions c144_flow_found.
(** With bits resolved, for a source and the cuts that are recorded from it. *)
Theorem c144_resolved : forall {V} (vz : V) symw prop nm ports conns asgs,
  wf_design vz true (fun _ => None) ports conns asgs -> outer_first conns -> port_widths symw conns ->
  one_driver ports conns asgs -> no_port_names ports asgs -> small_indices ports conns asgs ->
  exists s nl, flow vz true (cuts_of prop symw conns) nm ports conns asgs = Some (s, nl) /\
  forall p i q j, In p ports -> In q ports -> in_range (fp_drivers p) true i -> in_range (fp_drivers q) false j ->
  flows vz true ports conns asgs (fp_sy p) i (fp_sy q) j ->
  forall m lo hi n lo' hi', In (m, BPort (fp_id p) (zrange lo hi)) (bnodes (fb s)) -> lo <= i <= hi ->
  In (n, BPort (fp_id q) (zrange lo' hi')) (bnodes (fb s)) -> lo' <= j <= hi' ->
  forall cone, getCombFanIn nl n = Some cone -> In m cone.
Proof.
  intros V vz symw prop nm ports conns asgs W O P D N Si. pose proof (c141_cuts_known vz symw true prop ports conns asgs W O P eq_refl) as W'.
  destruct (c113_build_succeeds vz true (cuts_of prop symw conns) nm ports conns asgs W' D N Si) as (s & nl & F).
  exists s, nl. split; [exact F|]. exact (c144_flow_found vz true _ nm ports conns asgs W' D N s nl F).
Qed.
Print Assumptions c144_resolved.
(** The design of [ct_wf]: bit 0 of the input goes into the instance, through its
    assignment, and out to the first output, which has the input in its cone. *)
Example ct_flows : flows false true ct_ports ct_conns ct_asgs 10 0 11 0.
Proof.
  eapply fl_step; [eapply (ca_in _ _ _ _ _ 10 0 (FConn 3 13 2 false (bits_of 10 0 1)) (FPort 3 13 [(0, 1, true)]) 0)|].
  - left. reflexivity.
  - reflexivity.
  - right; right; right; left. reflexivity.
  - reflexivity.
  - exists 0, 1. split; [left; reflexivity|lia].
  - eexists. split; [cbn; left; reflexivity|cbn; left; reflexivity].
  - eapply fl_step; [eapply (ca_asg _ _ _ _ _ 13 0 (FAsg (bits_of 14 0 1) (bits_of 13 0 1)) 0 14 0)|].
    + left. reflexivity.
    + reflexivity.
    + eexists. split; [cbn; left; reflexivity|cbn; left; reflexivity].
    + eapply fl_step; [eapply (ca_out _ _ _ _ _ 14 0 (FConn 4 14 2 true (EConcat 2 [bits_of 12 0 0; bits_of 11 0 0])) (FPort 4 14 [(0, 1, false)]) 11 0)|apply fl_here].
      * right; left. reflexivity.
      * reflexivity.
      * do 4 right; left. reflexivity.
      * reflexivity.
      * exists 0, 1. split; [left; reflexivity|lia].
      * reflexivity.
      * reflexivity.
Qed.
Example ct_found : match flow false true ct_h unary ct_ports ct_conns ct_asgs with
  | Some (s, nl) => In (0, BPort 0 (zrange 0 1)) (bnodes (fb s)) /\ In (1, BPort 1 (zrange 0 0)) (bnodes (fb s)) /\ forall cone, getCombFanIn nl 1 = Some cone -> In 0 cone
  | None => False end.
Proof.
  assert (D : one_driver ct_ports ct_conns ct_asgs) by (unfold one_driver; cbn; repeat constructor; cbn; intuition congruence).
  assert (N : no_port_names ct_ports ct_asgs).
  { intros a s i p Ia Ib Ip. cbn in Ia. each Ia. cbn in Ib. assert (s = 14) as -> by (destruct Ib as [E|[E|[]]]; congruence). cbn in Ip. each Ip; cbn; discriminate. }
  destruct (flow false true ct_h unary ct_ports ct_conns ct_asgs) as [[s nl]|] eqn:F; [|vm_compute in F; discriminate].
  assert (M : In (0, BPort 0 (zrange 0 1)) (bnodes (fb s)) /\ In (1, BPort 1 (zrange 0 0)) (bnodes (fb s))) by (vm_compute in F; injection F as <- _; vm_compute; tauto).
  split; [exact (proj1 M)|]. split; [exact (proj2 M)|]. intros cone C.
  refine (c144_flow_found false true ct_h unary ct_ports ct_conns ct_asgs ct_wf D N s nl F (FPort 0 10 [(0, 1, true)]) 0 (FPort 1 11 [(0, 0, false)]) 0 _ _ _ _ ct_flows 0 0 1 1 0 0 (proj1 M) _ (proj2 M) _ cone C).
  - left. reflexivity.
  - right. left. reflexivity.
  - exists 0, 1. split; [left; reflexivity|lia].
  - exists 0, 0. split; [left; reflexivity|lia].
  - lia.
  - lia.
Qed.

(** * C145 *)
(** An input bit is in the cone of an output bit exactly if it flows there, when ports and
    assignments are one bit wide and bits are resolved. *)
Theorem c145_single_partial : forall {V} (vz : V) h nm ports conns asgs,
  wf_design vz true h ports conns asgs -> one_driver ports conns asgs -> no_port_names ports asgs ->
  (forall p lo hi x, In p ports -> In (lo, hi, x) (fp_drivers p) -> lo = hi) -> (forall a, In a asgs -> ew (fa_lhs a) = 1) ->
  forall s nl, flow vz true h nm ports conns asgs = Some (s, nl) ->
  forall p i q j m n cone, In p ports -> In q ports -> in_range (fp_drivers p) true i -> in_range (fp_drivers q) false j ->
  In (m, BPort (fp_id p) (zrange i i)) (bnodes (fb s)) -> In (n, BPort (fp_id q) (zrange j j)) (bnodes (fb s)) -> p <> q ->
  getCombFanIn nl n = Some cone -> (In m cone <-> flows vz true ports conns asgs (fp_sy p) i (fp_sy q) j).
Proof.
  intros V vz h nm ports conns asgs W O N SP SA s nl F p i q j m n cone Ip Iq Di Dj Im In' Ne C. split.
  2: { intros Fl. exact (c144_flow_found vz true h nm ports conns asgs W O N s nl F p i q j Ip Iq Di Dj Fl m i i n j j Im (conj (le_n i) (le_n i)) In' (conj (le_n j) (le_n j)) cone C). }
  destruct (c112_cone_exact vz true h nm ports conns asgs W O N s nl F) as (role & St & X & K).
  pose proof (st_has _ _ _ _ _ _ _ _ St m p i i Ip Im) as Hm. pose proof (st_has _ _ _ _ _ _ _ _ St n q j j Iq In') as Hn.
  destruct (st_node _ _ _ _ _ _ _ _ St m Hm) as (_ & _ & _ & Rm). apply (Rm p i i Ip) in Im.
  destruct (st_node _ _ _ _ _ _ _ _ St n Hn) as (_ & _ & _ & Rn). apply (Rn q j j Iq) in In'.
  intros I. apply (K n cone C m) in I; [|rewrite Im; discriminate].
  destruct (chain_flows vz h ports conns asgs W SP SA nl role _ St n m I) as [->|(s1 & i1 & t & j1 & Wm & Rd & Fl)].
  - exfalso. apply Ne. congruence.
  - rewrite Im in Wm. rewrite In' in Rd. cbn in Wm, Rd. destruct Di as (a & b & Ia & _), Dj as (a' & b' & Ia' & _).
    destruct Wm as [(-> & L1 & _)|(c & k & Ic & Oc & Ec & _)].
    2: { pose proof (proj2 (conn_drivers vz h ports conns asgs W c p Ic Ip Ec) _ _ _ Ia) as B. rewrite Oc in B. discriminate. }
    destruct Rd as [(-> & L2 & _)|(c & k & Ic & Oc & Ec & _)].
    2: { pose proof (proj2 (conn_drivers vz h ports conns asgs W c q Ic Iq Ec) _ _ _ Ia') as B. rewrite Oc in B. discriminate. }
    assert (i1 = i) by lia. assert (j1 = j) by lia. subst. exact Fl.
Qed.
Print Assumptions c145_single_partial.

(** In general it is not: two wires [w[0] = a] and [w[1] = b] enter an instance by a port of
    two bits, of which only bit 1 is used.  The port is one node, so [a] is in the cone. *)
Definition bw_ports := [FPort 0 10 [(0, 0, true)]; FPort 1 11 [(0, 0, true)]; FPort 2 12 [(0, 0, false)]; FPort 3 13 [(0, 1, true)]; FPort 4 14 [(0, 0, false)]].
Definition bw_conns : list (fconn bool) := [FConn 3 13 2 false (bits_of 15 0 1); FConn 4 14 1 true (bits_of 12 0 0)].
Definition bw_asgs : list (fasg bool) := [FAsg (bits_of 15 0 0) (bits_of 10 0 0); FAsg (bits_of 15 1 1) (bits_of 11 0 0); FAsg (bits_of 14 0 0) (bits_of 13 1 1)].
Definition bw_symw (s : nat) : N := if Nat.eqb s 13 then 2%N else 1%N.
Lemma bw_wf : wf_design false true (fun _ => None) bw_ports bw_conns bw_asgs.
Proof.
  assert (Rd : forall e : expr bool, e = bits_of 15 0 1 \/ e = bits_of 10 0 0 \/ e = bits_of 11 0 0 \/ e = bits_of 13 1 1 ->
    readable false true bw_ports e /\ forall k x, In (AOpq x) (nth k (bits false e) []) -> flat x).
  { intros e [ -> | [ -> | [ -> | -> ] ] ].
    all: (split; [split; [cbn; repeat split; lia|split]|]).
    all: try (intros s i p I J; cbn in I, J; each J; cbn; intros ->; repeat (destruct I as [I|I]; [discriminate|]); destruct I).
    all: try (intros _; cbn; repeat split; try lia; try discriminate).
    all: intros k x I; repeat (destruct k as [|k]; [cbn in I; destruct I as [I|[]]; discriminate|]); cbn in I; destruct k; destruct I. }
  split.
  - discriminate.
  - cbn. repeat constructor; cbn; lia.
  - cbn. repeat constructor; cbn; lia.
  - intros p I. cbn in I. each I.
    all: (split; [intros lo hi x [[= <- <- <-]|[]]; lia|]; intros l lo hi x l' lo' hi' x' l'' E; cbn in E; destruct l as [|? l]; [destruct l'; discriminate|destruct l; discriminate]).
  - intros a I. cbn in I. each I.
    all: (split; [exact I|]; split; [cbn; repeat split; try lia; discriminate|]; split; [cbn; repeat constructor; cbn; intuition congruence|]; split; [|discriminate]).
    all: intros q p Iq Ip R; cbn in Iq; each Iq; cbn in Ip; each Ip; try discriminate R; pick.
  - intros a I. cbn in I. each I.
    all: match goal with |- readable _ _ _ (fa_rhs ?a) /\ _ => destruct (Rd (fa_rhs a)) as [R1 R2]; [cbn; tauto|split; [exact R1|split; [exact R2|]]] end.
    all: split; [reflexivity|]; intros s i J K; cbn in J, K; repeat (destruct J as [J|J]; [inversion J; subst; repeat (destruct K as [K|K]; [discriminate K|]); destruct K|]); destruct J.
  - intros c I. cbn in I. each I; (split; [cbn; lia|]; split; [reflexivity|]).
    + exists (FPort 3 13 [(0, 1, true)]). split; [cbn; tauto|]. split; [reflexivity|]. split; [reflexivity|]. intros lo hi x [[= <- <- <-]|[]]. cbn. lia.
    + exists (FPort 4 14 [(0, 0, false)]). split; [cbn; tauto|]. split; [reflexivity|]. split; [reflexivity|]. intros lo hi x [[= <- <- <-]|[]]. cbn. lia.
  - intros c I O. cbn in I. each I; try discriminate O. apply Rd. cbn. tauto.
  - intros c I O. cbn in I. each I; try discriminate O. split; [cbn; tauto|]. split; [cbn; repeat split; try lia; discriminate|]. split.
    + intros q p Iq Ip R. cbn in Iq. each Iq; cbn in Ip; each Ip; try discriminate R; pick.
    + intros k s i l _ _ Eh _. discriminate Eh.
Qed.
Lemma bw_no_flow t j : flows false true bw_ports bw_conns bw_asgs 10 0 t j -> In (t, j) [(10, 0); (15, 0); (13, 0)].
Proof.
  assert (G : forall s i, flows false true bw_ports bw_conns bw_asgs s i t j -> In (s, i) [(10, 0); (15, 0); (13, 0)] -> In (t, j) [(10, 0); (15, 0); (13, 0)]).
  { intros s i F. induction F as [|s i t j u k C F IH]; [auto|]. intros I. apply IH. clear IH F.
    destruct C as [a k' t j Ia E O|c p k' Ic Oc Ip Ep _ O|c p t j Ic Oc Ip Ep _ -> E].
    - cbn in Ia. each Ia; (destruct k' as [|k']; [|destruct k'; discriminate E]); cbn in E; injection E as <- <-; destruct O as (x & Ix & Jx); cbn in Ix; destruct Ix as [<-|[]]; cbn in Jx; destruct Jx as [E|[]]; injection E as <- <-; cbn in I |- *; intuition congruence.
    - cbn in Ic. each Ic; try discriminate Oc. cbn in Ip. each Ip; try discriminate Ep. destruct O as (x & Ix & Jx). cbn in Ix |- *.
      destruct k' as [|[|k']]; cbn in Ix; [| |destruct k'; destruct Ix]; destruct Ix as [<-|[]]; cbn in Jx; destruct Jx as [E|[]]; injection E as <- <-; cbn in I; intuition congruence.
    - cbn in Ic. each Ic; try discriminate Oc. cbn in Ip. each Ip; try discriminate Ep. cbn in I. intuition congruence. }
  intros F. apply (G _ _ F). left. reflexivity.
Qed.
Lemma bw_apart : one_driver bw_ports bw_conns bw_asgs /\ no_port_names bw_ports bw_asgs.
Proof.
  split; [unfold one_driver; cbn; repeat constructor; cbn; intuition congruence|].
  intros a s i p Ia Ib Ip. cbn in Ia. assert (s = 15 \/ s = 14) by (each Ia; cbn in Ib; destruct Ib as [E|[]]; injection E as <- <-; auto). cbn in Ip. each Ip; cbn; lia.
Qed.
(** What [c145_single_partial] says, for nodes of any width: some bit of the one flows to some
    bit of the other. *)
Definition cones_flow {V} (vz : V) (h : hints) nm ports conns asgs : Prop :=
  forall s nl, flow vz true h nm ports conns asgs = Some (s, nl) ->
  forall p q m lo hi n lo' hi' cone, In p ports -> In q ports -> p <> q -> In (m, BPort (fp_id p) (zrange lo hi)) (bnodes (fb s)) -> In (n, BPort (fp_id q) (zrange lo' hi')) (bnodes (fb s)) ->
  (forall i, lo <= i <= hi -> in_range (fp_drivers p) true i) -> (forall i, lo' <= i <= hi' -> in_range (fp_drivers q) false i) ->
  getCombFanIn nl n = Some cone -> In m cone -> exists i j, lo <= i <= hi /\ lo' <= j <= hi' /\ flows vz true ports conns asgs (fp_sy p) i (fp_sy q) j.
(** False with the cuts that are recorded, whether they are propagated or not. *)
Theorem c145_wide_refuted : forall prop,
  wf_design false true (fun _ => None) bw_ports bw_conns bw_asgs /\ one_driver bw_ports bw_conns bw_asgs /\ no_port_names bw_ports bw_asgs /\
  ~ cones_flow false (cuts_of prop bw_symw bw_conns) unary bw_ports bw_conns bw_asgs.
Proof.
  intros prop. split; [exact bw_wf|]. split; [exact (proj1 bw_apart)|]. split; [exact (proj2 bw_apart)|]. intros H.
  assert (B : match flow false true (cuts_of prop bw_symw bw_conns) unary bw_ports bw_conns bw_asgs with
    | Some (s, nl) => In (0, BPort 0 (zrange 0 0)) (bnodes (fb s)) /\ In (2, BPort 2 (zrange 0 0)) (bnodes (fb s)) /\ exists cone, getCombFanIn nl 2 = Some cone /\ In 0 cone
    | None => False end).
  { destruct prop; vm_compute; (split; [tauto|]); (split; [tauto|]); eexists; (split; [reflexivity|]); cbn; tauto. }
  destruct (flow false true (cuts_of prop bw_symw bw_conns) unary bw_ports bw_conns bw_asgs) as [[s nl]|] eqn:E; [|destruct B]. destruct B as (I0 & I2 & cone & C & J).
  destruct (H s nl E (FPort 0 10 [(0, 0, true)]) (FPort 2 12 [(0, 0, false)]) 0 0 0 2 0 0 cone) as (i & j & Li & Lj & F); auto.
  - left. reflexivity.
  - right; right; left. reflexivity.
  - discriminate.
  - intros i L. exists 0, 0. split; [left; reflexivity|exact L].
  - intros i L. exists 0, 0. split; [left; reflexivity|exact L].
  - assert (i = 0) by lia. subst i. cbn in F. apply bw_no_flow in F. cbn in F. intuition congruence.
Qed.
Print Assumptions c145_wide_refuted.
(** The design is one of which [c144_resolved] speaks. *)
Example bw_source : outer_first bw_conns /\ port_widths bw_symw bw_conns /\ small_indices bw_ports bw_conns bw_asgs.
Proof.
  split; [|split].
  - intros p c q s i c' E O I J. assert (Ic : In c bw_conns) by (rewrite E; apply in_elt). assert (Ic' : In c' bw_conns) by (rewrite E; apply in_or_app; auto).
    cbn in Ic. each Ic; try discriminate O. cbn in I. destruct I as [I|[]]. injection I as <- <-. cbn in Ic'. each Ic'; cbn; discriminate.
  - intros c I _. cbn in I. each I; reflexivity.
  - intros s i I. cbn in I. repeat (destruct I as [I|I]; [injection I as <- <-; unfold int32_max; cbn; lia|]). destruct I.
Qed.

(** A design of single bits: [y = a], with another input [b]. *)
Definition sb_ports := [FPort 0 10 [(0, 0, true)]; FPort 1 11 [(0, 0, true)]; FPort 2 12 [(0, 0, false)]].
Definition sb_asgs : list (fasg bool) := [FAsg (bits_of 12 0 0) (bits_of 10 0 0)].
Lemma sb_wf : wf_design false true (fun _ => None) sb_ports [] sb_asgs.
Proof.
  assert (Rd : readable false true sb_ports (bits_of 10 0 0) /\ forall k x, In (AOpq x) (nth k (bits false (bits_of 10 0 0)) []) -> flat x).
  { split; [split; [cbn; repeat split; lia|split]|].
    - intros s i p I J; cbn in I, J; each J; cbn; intros ->; repeat (destruct I as [I|I]; [discriminate|]); destruct I.
    - intros _; cbn; repeat split; try lia; try discriminate.
    - intros k x I; repeat (destruct k as [|k]; [cbn in I; destruct I as [I|[]]; discriminate|]); cbn in I; destruct k; destruct I. }
  split.
  - discriminate.
  - cbn. repeat constructor; cbn; lia.
  - cbn. repeat constructor; cbn; lia.
  - intros p I. cbn in I. each I.
    all: (split; [intros lo hi x [[= <- <- <-]|[]]; lia|]; intros l lo hi x l' lo' hi' x' l'' E; cbn in E; destruct l as [|? l]; [destruct l'; discriminate|destruct l; discriminate]).
  - intros a I. cbn in I. each I.
    split; [exact I|]. split; [cbn; repeat split; try lia; discriminate|]. split; [cbn; repeat constructor; cbn; intuition congruence|]. split; [|discriminate].
    intros q p Iq Ip R; cbn in Iq; each Iq; cbn in Ip; each Ip; try discriminate R; pick.
  - intros a I. cbn in I. each I. split; [exact (proj1 Rd)|]. split; [exact (proj2 Rd)|]. split; [reflexivity|].
    intros s i J K; cbn in J, K. destruct J as [J|[]], K as [K|[]]. congruence.
  - intros c [].
  - intros c [].
  - intros c [].
Qed.
Example sb_exact : match flow false true (fun _ => None) unary sb_ports [] sb_asgs with
  | Some (s, nl) => forall cone, getCombFanIn nl 2 = Some cone ->
      (In 0 cone <-> flows false true sb_ports [] sb_asgs 10 0 12 0) /\ (In 1 cone <-> flows false true sb_ports [] sb_asgs 11 0 12 0) /\ In 0 cone /\ ~ In 1 cone
  | None => False end.
Proof.
  assert (D : one_driver sb_ports [] sb_asgs) by (unfold one_driver; cbn; repeat constructor; cbn; intuition congruence).
  assert (N : no_port_names sb_ports sb_asgs).
  { intros a s i p Ia Ib Ip. cbn in Ia. each Ia. cbn in Ib. assert (s = 12) as -> by (destruct Ib as [E|[]]; congruence). cbn in Ip. each Ip; cbn; discriminate. }
  destruct (flow false true (fun _ => None) unary sb_ports [] sb_asgs) as [[s nl]|] eqn:F; [|vm_compute in F; discriminate]. intros cone C.
  assert (M : In (0, BPort 0 (zrange 0 0)) (bnodes (fb s)) /\ In (1, BPort 1 (zrange 0 0)) (bnodes (fb s)) /\ In (2, BPort 2 (zrange 0 0)) (bnodes (fb s)) /\ In 0 cone /\ ~ In 1 cone).
  { vm_compute in F. injection F as <- <-. vm_compute in C. injection C as <-. vm_compute. intuition discriminate. }
  destruct M as (M0 & M1 & M2 & Y & Z).
  assert (SP : forall p lo hi x, In p sb_ports -> In (lo, hi, x) (fp_drivers p) -> lo = hi) by (intros p lo hi x I J; cbn in I; each I; cbn in J; destruct J as [[= <- <- <-]|[]]; reflexivity).
  assert (SA : forall a, In a sb_asgs -> ew (fa_lhs a) = 1) by (intros a I; cbn in I; each I; reflexivity).
  pose proof (c145_single_partial false (fun _ => None) unary sb_ports [] sb_asgs sb_wf D N SP SA s nl F) as T.
  assert (R : forall x, in_range [(0, 0, x)] x 0) by (intros x; exists 0, 0; split; [left; reflexivity|lia]).
  split; [|split; [|auto]].
  - apply (T (FPort 0 10 [(0, 0, true)]) 0 (FPort 2 12 [(0, 0, false)]) 0 0 2 cone); cbn; auto; discriminate.
  - apply (T (FPort 1 11 [(0, 0, true)]) 0 (FPort 2 12 [(0, 0, false)]) 0 1 2 cone); cbn; auto; discriminate.
Qed.
