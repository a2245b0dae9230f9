(** C141: the cuts that are recorded while instances are visited. *)
From Coq Require Import Ascii String.
From Verif Require Import Base M_Graph M_Range M_Netlist M_DFS M_Path M_Text M_Annot M_Interval M_Heap M_Drivers M_Pending M_DFA M_Builder M_Slice M_Port M_Inst M_Flow
  S_Graph S_Reach S_Netlist S_Inst S_Slice S_Port S_Flow S_Cuts S_Cuts2 P_Flow8 P_Cuts P_Cuts2 Properties_Flow.

(** A cut of what an output is connected to is a cut of the port, so C99 asks nothing of
    the cuts of a design. *)
Theorem c141_cuts_known : forall {V} (vz : V) symw rb prop ports conns asgs,
  wf_design vz rb (fun _ => None) ports conns asgs -> outer_first conns -> port_widths symw conns -> rb || negb prop = true ->
  wf_design vz rb (cuts_of prop symw conns) ports conns asgs.
Proof. exact @cuts_wf. Qed.
Print Assumptions c141_cuts_known.

(** The nodes of a port are made when its instance is visited, with the cuts recorded so
    far; these are the cuts that there are in the end, which the model uses throughout. *)
Theorem c141_final : forall {V} symw prop p (c : fconn V) q, NoDup (map (fun c => fc_sy c) (p ++ c :: q)) ->
  cuts_of prop symw (p ++ c :: q) (fc_sy c) = cuts_of prop symw (p ++ [c]) (fc_sy c).
Proof. intros V symw. exact (cuts_final symw). Qed.
Print Assumptions c141_final.

(** The traversal of any instance tree visits instances before what they contain: if names
    are in scope, the connections that it records cuts for are in the order asked for. *)
Theorem c141_visit_order : forall {V} owner_of pats own (tops : list (@sym V)) evs (conns : list (fconn V)),
  traverse pats true own tops = Some evs -> (forall t, In t tops -> scoped owner_of own t) -> NoDup (flat_map ids tops) -> ~ In own (flat_map ids tops) ->
  map seen conns = cut_conns evs -> outer_first conns.
Proof. exact @visit_order. Qed.
Print Assumptions c141_visit_order.

Theorem c141_built : forall {V} (vz : V) symw rb prop nm ports conns asgs,
  wf_design vz rb (fun _ => None) ports conns asgs -> outer_first conns -> port_widths symw conns -> rb || negb prop = true ->
  exists s, flow_state vz rb (cuts_of prop symw conns) nm ports conns asgs = DOk s /\
    forall p a c x i, In p ports -> In (a, c, x) (fp_drivers p) -> a <= i <= c ->
      exists n lo hi, In (n, BPort (fp_id p) (zrange lo hi)) (bnodes (fb s)) /\ lo <= i <= hi.
Proof. intros V vz symw rb prop nm ports conns asgs W O P Q. apply c99_built. now apply cuts_wf. Qed.
Print Assumptions c141_built.

Theorem c141_cone_determines : forall {V} (vz : V) symw rb prop nm ports conns asgs,
  wf_design vz rb (fun _ => None) ports conns asgs -> outer_first conns -> port_widths symw conns -> rb || negb prop = true ->
  forall s nl q n lo hi cone,
  flow vz rb (cuts_of prop symw conns) nm ports conns asgs = Some (s, nl) -> In q ports -> In (n, BPort (fp_id q) (zrange lo hi)) (bnodes (fb s)) ->
  getCombFanIn nl n = Some cone -> (forall m, In m cone -> ~ Reach1 (CombBack nl) m m) ->
  forall v1 v2, settled vz conns asgs v1 -> settled vz conns asgs v2 -> agree_undriven ports conns asgs v1 v2 ->
  (forall p m a c i, free_input ports conns p i -> In m cone -> In (m, BPort (fp_id p) (zrange a c)) (bnodes (fb s)) -> a <= i <= c ->
     v1 (fp_sy p) i = v2 (fp_sy p) i) ->
  forall i, lo <= i <= hi -> v1 (fp_sy q) i = v2 (fp_sy q) i.
Proof. intros V vz symw rb prop nm ports conns asgs W O P Q. apply c99_cone_determines. now apply cuts_wf. Qed.
Print Assumptions c141_cone_determines.

(** * An instance in an instance *)
(** module leaf(output [3:0] q); endmodule  module mid(output [3:0] o); leaf v(.q(o)); endmodule
    module top; logic [1:0] w, x; mid u(.o({x, w})); endmodule
    Symbols: o 13, w 14, x 16, q 20.  The cut of o is handed on to q. *)
Definition n_ports := [FPort 3 13 [(0, 3, false)]; FPort 5 20 [(0, 3, false)]].
Definition n_outer : fconn bool := FConn 3 13 4 true (EConcat 4 [bits_of 16 0 1; bits_of 14 0 1]).
Definition n_inner : fconn bool := FConn 5 20 4 true (bits_of 13 0 3).
Definition n_symw (_ : nat) : N := 4%N.
Example n_cuts : cuts_of true n_symw [n_outer; n_inner] 13 = Some [2] /\ cuts_of true n_symw [n_outer; n_inner] 20 = Some [2].
Proof. vm_compute. auto. Qed.
Lemma n_wf conns : (forall c, In c conns -> c = n_outer \/ c = n_inner) -> wf_design false true (fun _ => None) n_ports conns [].
Proof.
  intros C. constructor; try (intros a I; now destruct (I : False)).
  - intros s l E. discriminate.
  - repeat constructor; cbn; intuition discriminate.
  - repeat constructor; cbn; intuition discriminate.
  - intros p I. cbn in I. each I.
    all: (split; [intros lo hi x [[= <- <- <-]|[]]; lia|]; intros l lo hi x l' lo' hi' x' l'' E; cbn in E; destruct l as [|? l]; [destruct l'; discriminate|destruct l; discriminate]).
  - intros c I. destruct (C c I) as [ -> | -> ]; (split; [cbn; lia|]); (split; [reflexivity|]).
    + exists (FPort 3 13 [(0, 3, false)]). split; [cbn; tauto|]. split; [reflexivity|]. split; [reflexivity|]. intros lo hi x [[= <- <- <-]|[]]. cbn. lia.
    + exists (FPort 5 20 [(0, 3, false)]). split; [cbn; tauto|]. split; [reflexivity|]. split; [reflexivity|]. intros lo hi x [[= <- <- <-]|[]]. cbn. lia.
  - intros c I O. destruct (C c I) as [ -> | -> ]; discriminate.
  - intros c I O. destruct (C c I) as [ -> | -> ].
    + split; [cbn; auto|]. split; [cbn; repeat split; try lia; discriminate|]. split.
      * intros q p Iq Ip. cbn in Iq, Ip. each Iq; each Ip; cbn; discriminate.
      * intros k s i l _ _ E. discriminate.
    + split; [cbn; auto|]. split; [cbn; repeat split; try lia; discriminate|]. split.
      * intros q p Iq Ip. cbn in Iq, Ip. each Iq; each Ip; cbn; [|discriminate]. intros _. exists 0, 3, false. cbn. auto with arith.
      * intros k s i l _ _ E. discriminate.
Qed.
Example n_outer_first : outer_first [n_outer; n_inner].
Proof.
  intros p c q s i c' E _ I J. destruct p as [|x [|y p]]; [injection E as <- <-|injection E as <- <- <-|exfalso; destruct p; discriminate E].
  - cbn in I, J. destruct J as [<-|[<-|[]]]; cbn; intros <-; repeat (destruct I as [I|I]; [discriminate I|]); destruct I.
  - cbn in I, J. destruct J as [<-|[]]; cbn; intros <-; repeat (destruct I as [I|I]; [discriminate I|]); destruct I.
Qed.
Lemma n_widths conns : (forall c, In c conns -> c = n_outer \/ c = n_inner) -> port_widths n_symw conns.
Proof. intros C c I _. destruct (C c I) as [ -> | -> ]; reflexivity. Qed.
Example n_known : wf_design false true (cuts_of true n_symw [n_outer; n_inner]) n_ports [n_outer; n_inner] [].
Proof.
  assert (C : forall c, In c [n_outer; n_inner] -> c = n_outer \/ c = n_inner) by (intros c [<-|[<-|[]]]; auto).
  apply c141_cuts_known; [apply n_wf, C|exact n_outer_first|apply n_widths, C|reflexivity].
Qed.

(** The cut of o is there when the nodes of o are made, and is not lost later. *)
Example n_final : cuts_of true n_symw [n_outer; n_inner] 13 = cuts_of true n_symw [n_outer] 13 /\ cuts_of true n_symw [n_outer] 13 = Some [2].
Proof. split; [|vm_compute; reflexivity]. refine (c141_final n_symw true [] n_outer [n_inner] _). repeat constructor; cbn; intuition discriminate. Qed.

(** The traversal of the tree of the example finds the two connections in this order. *)
Definition n_tops : list (@sym bool) :=
  [YInst 1 (lit "top") (lit "top") false
     [YInst 2 (lit "top.u") (lit "mid") false
        [YPort 3 (Some 13) [(0, 3, false)]; YInst 3 (lit "top.u.v") (lit "leaf") false [YPort 5 (Some 20) [(0, 3, false)]] [CnPort 5 true (seen n_inner)]]
        [CnPort 3 true (seen n_outer)]] []].
Definition n_owner (s : nat) : nat := match s with 13 => 2 | 20 => 3 | _ => 1 end.
Example n_order : match traverse [] true 0 n_tops with Some evs => map seen [n_outer; n_inner] = cut_conns evs | None => False end.
Proof. vm_compute. reflexivity. Qed.
Example n_scoped : forall t, In t n_tops -> scoped n_owner 0 t.
Proof.
  assert (Q : forall own i c x, (forall s k, In (s, k) (lbits (fc_actual c)) -> n_owner s = own) -> n_owner (fc_sy c) = i -> In x [seen c] -> @conn_scoped bool n_owner own i x).
  { intros own i c x A B [<-|[]]. split; [intros s [= <-]; exact B|intros e s k [= <-]; apply A]. }
  intros t [<-|[]]. split; [intros x []|]. split; [|exact I]. split.
  - intros x. apply Q; [|reflexivity]. intros s k J. cbn in J. repeat (destruct J as [J|J]; [injection J as <- _; reflexivity|]). destruct J.
  - split; [exact I|]. split; [|exact I]. split; [|split; exact I].
    intros x. apply Q; [|reflexivity]. intros s k J. cbn in J. repeat (destruct J as [J|J]; [injection J as <- _; reflexivity|]). destruct J.
Qed.
Example n_outer_first_again : outer_first [n_outer; n_inner].
Proof.
  assert (D := n_order). destruct (traverse [] true 0 n_tops) as [evs|] eqn:E; [|destruct D].
  refine (c141_visit_order n_owner [] 0 n_tops evs _ E n_scoped _ _ D); [repeat constructor; cbn; intuition discriminate|cbn; intuition discriminate].
Qed.

(** The order of the visit is needed: with the inner connection first, its port does not
    get the cut. *)
Theorem c141_any_order_refuted : ~ (forall (symw : nat -> N) ports (conns : list (fconn bool)) asgs,
  wf_design false true (fun _ => None) ports conns asgs -> port_widths symw conns -> wf_design false true (cuts_of true symw conns) ports conns asgs).
Proof.
  intros H. assert (C : forall c, In c [n_inner; n_outer] -> c = n_outer \/ c = n_inner) by (intros c [<-|[<-|[]]]; auto).
  destruct (w_out _ _ _ _ _ _ (H n_symw n_ports [n_inner; n_outer] [] (n_wf _ C) (n_widths _ C)) n_inner (or_introl eq_refl) eq_refl) as (_ & _ & _ & K).
  destruct (K 1 13 1 [2] eq_refl eq_refl ltac:(vm_compute; reflexivity) (or_introl eq_refl)) as (l & E & _). vm_compute in E. discriminate.
Qed.
Print Assumptions c141_any_order_refuted.
(** So is resolving bits: without, a recorded cut falls inside the reference of an output. *)
Theorem c141_unresolved_refuted : ~ (forall (symw : nat -> N) ports (conns : list (fconn bool)) asgs,
  wf_design false false (fun _ => None) ports conns asgs -> outer_first conns -> port_widths symw conns -> wf_design false false (cuts_of true symw conns) ports conns asgs).
Proof.
  intros H. assert (C : forall c, In c [n_outer; n_inner] -> c = n_outer \/ c = n_inner) by (intros c [<-|[<-|[]]]; auto).
  assert (W : wf_design false false (fun _ => None) n_ports [n_outer; n_inner] []).
  { destruct (n_wf _ C) as [W1 W2 W3 W4 W5 W6 W7 W8 W9]. constructor; auto; try (intros a I; now destruct (I : False)).
    - intros c I O. destruct (C c I) as [ -> | -> ]; discriminate.
    - intros c I O. destruct (W9 c I O) as (A1 & A2 & A3 & _). repeat (split; [assumption|]). intros q s l d _ _ E. discriminate. }
  destruct (w_out _ _ _ _ _ _ (H n_symw n_ports [n_outer; n_inner] [] W n_outer_first (n_widths _ C)) n_inner (or_intror (or_introl eq_refl)) eq_refl) as (_ & _ & _ & K).
  apply (K (sel 13 0 3) 13 [2] 2); [now left|reflexivity|vm_compute; reflexivity|now left|cbn; lia].
Qed.
Print Assumptions c141_unresolved_refuted.
