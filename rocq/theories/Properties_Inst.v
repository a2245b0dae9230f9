(** Properties C62, C80 and C81: black boxes, the order of the collecting traversal, port
    nodes over a whole traversal. *)
From Coq Require Import Sorted NArith String.
From Verif Require Import Base M_Graph M_Range M_Netlist M_Text S_Text M_Annot M_Interval M_Heap M_Drivers M_Pending M_DFA M_Builder M_Slice M_Port M_Inst
  S_Interval S_Drivers S_DFA S_Builder S_Slice S_Port S_Inst P_Port P_Port2 P_Port3 P_Inst P_Inst2 P_Inst3.
Notation length := List.length.

(** * C62: if an instance matches a black-box pattern by definition name or hierarchical
    path, no node below its boundary is created while its ports still are; instances not
    matched are traversed. *)
Theorem c62_pattern : forall pats path def, exists b, isBlackBoxInstance pats path def = Some b /\ (b = true <-> Boxed pats path def).
Proof. exact blackbox_spec. Qed.
Print Assumptions c62_pattern.

(** Which ports, variables and blocks are handled, and for which instance: those in bodies
    reached through instances that are not black-boxed, and the ports of a black box. *)
Theorem c62_ports : forall V pats prop own (tops : list (@sym V)) evs, traverse pats prop own tops = Some evs ->
  forall i p int ds, In (VPort i p int ds) evs <->
    (exists ms, body pats own tops i ms /\ member_of (YPort p int ds) ms) \/
    (exists path def ms cs, instance pats own tops i path def ms cs /\ Boxed pats path def /\ In (YPort p int ds) ms).
Proof. intros V pats prop own tops evs E i p int ds. exact (traverse_says pats prop own tops evs E (VPort i p int ds)). Qed.
Print Assumptions c62_ports.
Theorem c62_variables : forall V pats prop own (tops : list (@sym V)) evs, traverse pats prop own tops = Some evs ->
  forall i sy ds, In (VVar i sy ds) evs <-> exists ms, body pats own tops i ms /\ member_of (YVar sy true ds) ms.
Proof. intros V pats prop own tops evs E i sy ds. exact (traverse_says pats prop own tops evs E (VVar i sy ds)). Qed.
Print Assumptions c62_variables.
Theorem c62_blocks : forall V pats prop own (tops : list (@sym V)) evs, traverse pats prop own tops = Some evs ->
  forall i id b, In (VDefer i id b) evs <-> exists ms, body pats own tops i ms /\ member_of (YBlock id b) ms.
Proof. intros V pats prop own tops evs E i id b. exact (traverse_says pats prop own tops evs E (VDefer i id b)). Qed.
Print Assumptions c62_blocks.
(** The recorded paths are those of the black boxes; connections are made at every visible
    instance, black box or not. *)
Theorem c62_boxes : forall V pats prop own (tops : list (@sym V)) evs, traverse pats prop own tops = Some evs ->
  forall i path, In (VBox i path) evs <-> exists def ms cs, instance pats own tops i path def ms cs /\ Boxed pats path def.
Proof. intros V pats prop own tops evs E i path. exact (traverse_says pats prop own tops evs E (VBox i path)). Qed.
Print Assumptions c62_boxes.
Theorem c62_connections : forall V pats prop own (tops : list (@sym V)) evs, traverse pats prop own tops = Some evs ->
  forall i p o x, In (VConn i p o x) evs <-> exists path def ms cs, instance pats own tops i path def ms cs /\ In (CnPort p o x) cs.
Proof. intros V pats prop own tops evs E i p o x. exact (traverse_says pats prop own tops evs E (VConn i p o x)). Qed.
Print Assumptions c62_connections.

(** Nothing is done for an instance below a black box. *)
Theorem c62_hidden : forall V pats prop own (tops : list (@sym V)) evs, traverse pats prop own tops = Some evs ->
  NoDup (flat_map ids tops) -> ~ In own (flat_map ids tops) ->
  forall i path def u ms cs, occurs (YInst i path def u ms cs) (YScope tops) -> Boxed pats path def ->
  forall e, In e evs -> ~ In (owner e) (flat_map ids ms).
Proof.
  intros V pats prop own tops evs E N No i path def u ms cs O B e I K.
  apply (proj2 (handle_spec pats prop (YScope tops) own) evs E) in I.
  exact (box_hides pats prop i path def u ms cs (owner e) B K (YScope tops) O N own No e I eq_refl).
Qed.
Print Assumptions c62_hidden.

(** So much for what is asked of the builder; every node it makes stems from such a
    request: a port of the instance, an interface variable, a constant at a connection. *)
Theorem c62_nodes : forall V pats prop (vz : V) visit sykind nm backrefs behind symw rb own tops evs t t',
  traverse pats prop own tops = Some evs ->
  run_evs prop vz visit sykind nm backrefs behind symw rb t evs = DOk t' ->
  forall n k, In (n, k) (bnodes (ibld t')) -> In (n, k) (bnodes (ibld t)) \/ exists e, In e evs /\
    match k with
    | BPort p _ => exists i int ds, e = VPort i p int ds
    | BVariable sy b => exists i ds lo hi, e = VVar i sy ds /\ In (lo, hi) ds /\ b = zrange lo hi
    | BConst => exists i p o x, e = VConn i p o x
    | BState _ _ => False
    end.
Proof.
  intros V pats prop vz visit sykind nm backrefs behind symw rb own tops evs t t' _ R n k I.
  destruct (evs_nodes _ _ _ _ _ _ _ _ _ _ _ _ R) as (new & Q & F). rewrite Q in I. apply in_app_iff in I. destruct I as [I|I]; [now left|].
  right. destruct (F n k I) as (e & Ie & Fe). exists e. split; [exact Ie|exact Fe].
Qed.
Print Assumptions c62_nodes.

(** The ports are there: each bit of each range in which the port is driven has a node. *)
Theorem c62_ports_created : forall V pats prop (vz : V) visit sykind nm backrefs behind symw rb own tops evs t t',
  traverse pats prop own tops = Some evs ->
  run_evs prop vz visit sykind nm backrefs behind symw rb t evs = DOk t' -> reg_sorted (ireg t) ->
  forall i p sy ds lo hi x k, In (VPort i p (Some sy) ds) evs -> ascending ds -> In (lo, hi, x) ds -> lo <= k <= hi ->
  exists n a b, In (n, BPort p (zrange a b)) (bnodes (ibld t')) /\ a <= k <= b.
Proof.
  intros V pats prop vz visit sykind nm backrefs behind symw rb own tops evs t t' _ R S i p sy ds lo hi x k Ip A Id L.
  apply in_split in Ip. destruct Ip as (l1 & l2 & ->). apply run_split in R. destruct R as (t1 & R1 & R2).
  pose proof (run_sorted _ _ _ _ _ _ _ _ _ _ _ _ R1 S) as S1. cbn [run_evs run_ev] in R2.
  destruct (materializePortNodes (port_hints prop (ireg t1)) (ibld t1) p (Some sy) ds) as [s'|] eqn:Em; cbn in R2; [|discriminate].
  destruct (materialize_nodes (port_hints prop (ireg t1)) (ibld t1) p sy ds s' A) as (new & E1 & _ & _ & _ & _ & C & _).
  { intros hs Q. unfold port_hints in Q. destruct prop; [exact (hints_sorted _ S1 _ _ Q)|discriminate]. }
  { exact Em. }
  destruct (proj2 (C k)) as (n & a & b & I & La); [eauto 8|].
  destruct (evs_nodes _ _ _ _ _ _ _ _ _ _ _ _ R2) as (new2 & Q & _). cbn in Q.
  exists n, a, b. split; [|exact La]. rewrite Q, E1. apply in_app_iff. left. apply in_app_iff. now right.
Qed.
Print Assumptions c62_ports_created.

(** The recorded paths and the deferred blocks of the final state. *)
Theorem c62_recorded : forall V pats prop (vz : V) visit sykind nm backrefs behind symw rb own tops evs t t',
  traverse pats prop own tops = Some evs ->
  run_evs prop vz visit sykind nm backrefs behind symw rb t evs = DOk t' -> ibox t = [] -> idefer t = [] ->
  (forall path, In path (ibox t') <-> exists i def ms cs, instance pats own tops i path def ms cs /\ Boxed pats path def) /\
  (forall id b, In (id, b) (idefer t') <-> exists i ms, body pats own tops i ms /\ member_of (YBlock id b) ms).
Proof.
  intros V pats prop vz visit sykind nm backrefs behind symw rb own tops evs t t' E R B0 D0.
  destruct (run_lists _ _ _ _ _ _ _ _ _ _ _ _ R) as (B & D). rewrite B, D, B0, D0. cbn [app]. split.
  - intros path. rewrite in_flat_map. split.
    + intros (e & Ie & J). destruct e; try (now destruct J). destruct J as [<-|[]].
      apply (traverse_says pats prop own tops evs E) in Ie. cbn in Ie. destruct Ie as (def & ms & cs & H). eauto.
    + intros (i & def & ms & cs & H). exists (VBox i path). split; [|now left]. apply (traverse_says pats prop own tops evs E). cbn. eauto.
  - intros id b. rewrite in_flat_map. split.
    + intros (e & Ie & J). destruct e; try (now destruct J). destruct J as [[= <- <-]|[]].
      apply (traverse_says pats prop own tops evs E) in Ie. cbn in Ie. destruct Ie as (ms & H). eauto.
    + intros (i & ms & H). exists (VDefer i id b). split; [|now left]. apply (traverse_says pats prop own tops evs E). cbn. eauto.
Qed.
Print Assumptions c62_recorded.

(** The traversal stops (SLANG_UNREACHABLE) exactly when a visible instance has a
    connection whose port is neither a port nor an interface port. *)
Definition Full_total : Prop := forall pats prop own (tops : list (@sym bool)), traverse pats prop own tops <> None.
Theorem c62_total_refuted : ~ Full_total.
Proof. intros H. apply (H [] false 0 [YInst 1 (lit "top.m") (lit "m") false [] [CnOther]]). vm_compute. reflexivity. Qed.
Print Assumptions c62_total_refuted.
Theorem c62_stops : forall V pats prop own (tops : list (@sym V)), traverse pats prop own tops = None <->
  exists i path def ms cs, instance pats own tops i path def ms cs /\ In CnOther cs.
Proof. intros. apply traverse_none. Qed.
Print Assumptions c62_stops.

(** A top with a black-boxed instance 1 holding instance 2, and instance 3 outside. *)
Definition x_inner : @sym bool := YInst 2 (lit "top.b.c") (lit "leaf") false [YPort 20 (Some 21) [(0, 1, true)]; YBlock 5 true] [].
Definition x_box : @sym bool :=
  YInst 1 (lit "top.b") (lit "blk") false [YPort 10 (Some 11) [(0, 3, true)]; YVar 12 true [(0, 0)]; YBlock 4 false; x_inner]
    [CnPort 10 false (Conn (Some 11) 4 true (Some (EConcat 4 [ELsp (Path (Some 7) 0 1) 2; ELsp (Path (Some 8) 0 1) 2])))].
Definition x_other : @sym bool := YGen false [YInst 3 (lit "top.d") (lit "leaf") false [YPort 30 (Some 31) [(0, 1, true)]; YBlock 6 true] [CnIface]].
Definition x_tops := [x_box; x_other; YGen true [YBlock 9 true]].
Definition short (e : @iev bool) : nat * nat :=
  match e with VCuts i _ => (0, i) | VBox i _ => (1, i) | VPort _ p _ _ => (2, p) | VVar _ s _ => (3, s) | VDefer _ d _ => (4, d) | VConn _ p _ _ => (5, p) end.
Example c62_traversed : option_map (map short) (traverse [] true 0 x_tops) =
  Some [(0, 1); (2, 10); (3, 12); (4, 4); (0, 2); (2, 20); (4, 5); (5, 10); (0, 3); (2, 30); (4, 6)].
Proof. vm_compute. reflexivity. Qed.
Example c62_by_definition : option_map (map short) (traverse [lit "bl?"] true 0 x_tops) =
  Some [(0, 1); (1, 1); (2, 10); (5, 10); (0, 3); (2, 30); (4, 6)].
Proof. vm_compute. reflexivity. Qed.
Example c62_by_path : option_map (map short) (traverse [lit "zz"; lit "top.d"] false 0 x_tops) =
  Some [(2, 10); (3, 12); (4, 4); (2, 20); (4, 5); (5, 10); (1, 3); (2, 30)].
Proof. vm_compute. reflexivity. Qed.
(** The hypotheses of [c62_hidden] hold there. *)
Example c62_hidden_applies : NoDup (flat_map ids x_tops) /\ ~ In 0 (flat_map ids x_tops) /\
  occurs x_box (YScope x_tops) /\ Boxed [lit "bl?"] (lit "top.b") (lit "blk") /\ flat_map ids [x_inner] = [2].
Proof.
  split; [vm_compute; repeat constructor; cbn; intuition discriminate|]. split; [vm_compute; intuition discriminate|].
  split; [eapply oc_scope; [now left|constructor]|]. split; [|reflexivity].
  destruct (blackbox_spec [lit "bl?"] (lit "top.b") (lit "blk")) as (b & E & B). apply B. vm_compute in E. congruence.
Qed.

(** * C80: over a whole traversal, no node of a port straddles a slice boundary of the
    actual the port is connected to.  [build vz no_hints e []] is the slice list the
    connection itself uses. *)
Definition Full_c80 (ok : nat -> expr bool -> Prop) : Prop :=
  forall pats visit sykind nm backrefs behind symw rb own tops evs t t' i port o x sy e n lo hi c,
  traverse pats true own tops = Some evs -> NoDup (flat_map ids tops) -> ~ In own (flat_map ids tops) ->
  run_evs true false visit sykind nm backrefs behind symw rb t evs = DOk t' -> reg_sorted (ireg t) ->
  (forall n b, ~ In (n, BPort port b) (bnodes (ibld t))) ->
  (forall j q o x, In (VConn j q o x) evs -> forall sy e, eligible x sy e ->
     typed (fun _ _ => False) e /\ ok sy e /\ symw sy = N.of_nat (ew e)) ->
  (forall j int ds, In (VPort j port int ds) evs -> j = i /\ int = Some sy /\ ascending ds) ->
  In (VConn i port o x) evs -> eligible x sy e ->
  In (n, BPort port (zrange lo hi)) (bnodes (ibld t')) -> boundary (build false no_hints e []) c -> c < ew e -> ~ lo < c <= hi.
(** Not for conditional actuals: their cuts are not recorded (C79). *)
Definition y_cond : expr bool :=
  ECond 2 true (ELsp (Path (Some 4) 0 0) 1)
    (EConcat 2 [ELsp (Path (Some 5) 0 0) 1; ELsp (Path (Some 6) 0 0) 1]) (ELsp (Path (Some 7) 0 1) 2) (fun _ a _ => a).
Definition y_tops : list (@sym bool) :=
  [YInst 1 (lit "top.u") (lit "m") false [YPort 10 (Some 11) [(0, 1, true)]] [CnPort 10 false (Conn (Some 11) 2 true (Some y_cond))]].
Definition st0 : ist := ISt (Bld 0 [] (fun _ => None) (fun _ => None) [] []) reg_empty [] [].
Definition run0 (evs : option (list (@iev bool))) : dres ist :=
  match evs with
  | None => DErr EAssert
  | Some l => run_evs true false (fun _ => []) (fun _ => SkOther) (fun _ => []) (fun _ => []) (fun _ _ => []) (fun s => if s =? 11 then 2%N else 0%N) true st0 l
  end.
Theorem c80_conditional_refuted : ~ Full_c80 (fun _ _ => True).
Proof.
  intros H.
  destruct (traverse [] true 0 y_tops) as [evs|] eqn:E; [|vm_compute in E; discriminate].
  destruct (run0 (Some evs)) as [t'|] eqn:R.
  2:{ exfalso. vm_compute in E. injection E as <-. vm_compute in R. discriminate. }
  refine (H [] (fun _ => []) (fun _ => SkOther) (fun _ => []) (fun _ => []) (fun _ _ => []) (fun s => if s =? 11 then 2%N else 0%N) true 0 y_tops evs st0 t' 1 10 false
    (Conn (Some 11) 2 true (Some y_cond)) 11 y_cond 0 0 1 1 E _ _ R _ _ _ _ _ _ _ _ _ _).
  - vm_compute. repeat constructor. intros [].
  - vm_compute. intuition discriminate.
  - intros s l Q. discriminate.
  - intros n b [].
  - intros j q o x I sy e El. vm_compute in E. injection E as <-. destruct I as [I|[I|[I|[]]]]; try discriminate. injection I as _ _ _ <-.
    destruct El as (Q1 & Q2 & _). injection Q1 as <-. injection Q2 as <-. split; [|split; [exact I|reflexivity]].
    cbn. repeat split; try lia; try discriminate; intros; cbn; repeat split; try lia; discriminate.
  - intros j int ds I. vm_compute in E. injection E as <-. destruct I as [I|[I|[I|[]]]]; try discriminate. injection I as <- <- <-.
    split; [reflexivity|]. split; [reflexivity|]. intros lo hi x [[= <- <- <-]|[]]. lia.
  - vm_compute in E. injection E as <-. right. right. now left.
  - repeat split.
  - vm_compute in E. injection E as <-. vm_compute in R. injection R as <-. cbn. left. reflexivity.
  - eexists. split; [vm_compute; left; reflexivity|reflexivity].
  - cbn. lia.
  - lia.
Qed.
Print Assumptions c80_conditional_refuted.
Theorem c80_grid_partial : forall V pats (vz : V) visit sykind nm backrefs behind symw rb own tops evs t t' i port o x sy e n lo hi c,
  traverse pats true own tops = Some evs -> NoDup (flat_map ids tops) -> ~ In own (flat_map ids tops) ->
  run_evs true vz visit sykind nm backrefs behind symw rb t evs = DOk t' -> reg_sorted (ireg t) ->
  (forall n b, ~ In (n, BPort port b) (bnodes (ibld t))) ->
  (forall j q o x, In (VConn j q o x) evs -> forall sy e, eligible x sy e ->
     typed (fun _ _ => False) e /\ concat_shaped e /\ symw sy = N.of_nat (ew e)) ->
  (forall j int ds, In (VPort j port int ds) evs -> j = i /\ int = Some sy /\ ascending ds) ->
  In (VConn i port o x) evs -> eligible x sy e ->
  In (n, BPort port (zrange lo hi)) (bnodes (ibld t')) -> boundary (build vz no_hints e []) c -> c < ew e -> ~ lo < c <= hi.
Proof. intros. eapply grid; eauto. Qed.
Print Assumptions c80_grid_partial.
(** In the example above port 10, connected to a concatenation, is split in the middle,
    black box or not. *)
Definition node_list (r : dres ist) : list bnode := match r with DOk t => map snd (bnodes (ibld t)) | DErr _ => [] end.
Definition run1 (evs : option (list (@iev bool))) : dres ist :=
  match evs with
  | None => DErr EAssert
  | Some l => run_evs true false (fun _ => []) (fun _ => SkOther) (fun _ => []) (fun _ => []) (fun _ _ => []) (fun s => if s =? 11 then 4%N else 0%N) true st0 l
  end.
Example c80_split : node_list (run1 (traverse [lit "blk"] true 0 x_tops)) =
  [BPort 10 (zrange 0 1); BPort 10 (zrange 2 3); BPort 30 (zrange 0 1)].
Proof. vm_compute. reflexivity. Qed.
Example c80_split_open : node_list (run1 (traverse [] true 0 x_tops)) =
  [BPort 10 (zrange 0 1); BPort 10 (zrange 2 3); BVariable 12 (zrange 0 0); BPort 20 (zrange 0 1); BPort 30 (zrange 0 1)].
Proof. vm_compute. reflexivity. Qed.

(** * C81: for every instance, cuts are recorded before anything else is done for it, and
    its connections are made after everything else. *)
Theorem c81_cuts_first : forall V pats own (tops : list (@sym V)) evs, traverse pats true own tops = Some evs ->
  forall l1 e l2, evs = l1 ++ e :: l2 -> owner e <> own -> (exists c, e = VCuts (owner e) c) \/ exists c, In (VCuts (owner e) c) l1.
Proof.
  intros V pats own tops evs E l1 e l2 Q Ne.
  destruct (handle_led pats (YScope tops) own evs E l1 e l2 Q) as [O|(c & I)]; [destruct (Ne O)|].
  apply in_app_iff in I. destruct I as [I|[I|[]]]; [right; eauto|left; exists c; congruence].
Qed.
Print Assumptions c81_cuts_first.
(** The recorded connections are all those of the instance. *)
Theorem c81_cuts_complete : forall V pats own (tops : list (@sym V)) evs, traverse pats true own tops = Some evs ->
  NoDup (flat_map ids tops) -> ~ In own (flat_map ids tops) ->
  forall i p o x c, In (VConn i p o x) evs -> In (VCuts i c) evs -> In x c.
Proof.
  intros V pats own tops evs E N No i p o x c Ix Ic.
  pose proof (proj2 (handle_spec pats true (YScope tops) own) evs E) as S. apply S in Ix. apply S in Ic.
  destruct (conn_cuts pats own _ _ Ix i p o x eq_refl) as (c' & M & I).
  rewrite (cuts_unique pats true own _ _ Ic i c eq_refl N No c' M) in I. exact I.
Qed.
Print Assumptions c81_cuts_complete.
Theorem c81_connections_last : forall V pats prop own (tops : list (@sym V)) evs, traverse pats prop own tops = Some evs ->
  NoDup (flat_map ids tops) -> ~ In own (flat_map ids tops) ->
  forall l1 i p o x l2 e, evs = l1 ++ VConn i p o x :: l2 -> In e l2 -> owner e = i -> exists p' o' x', e = VConn i p' o' x'.
Proof.
  intros V pats prop own tops evs E N No l1 i p o x l2 e Q I O.
  pose proof (handle_last pats prop (YScope tops) own evs E N No l1 i p o x l2 Q e I O) as C.
  destruct e; try destruct C. cbn in O. subst. eauto.
Qed.
Print Assumptions c81_connections_last.
(** Two instances with the same number are told apart by nothing: distinct numbers are
    needed for [c81_connections_last]. *)
Example c81_numbers_matter : let y := @YInst bool 1 (lit "a") (lit "m") false [YPort 10 None []] [CnPort 10 false (Conn None 1 true None)] in
  option_map (map short) (traverse [] false 0 [y; y]) = Some [(2, 10); (5, 10); (2, 10); (5, 10)].
Proof. vm_compute. reflexivity. Qed.
