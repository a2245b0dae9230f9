(** Properties C53, C77, C78 and C79: port nodes, port connections and the cuts recorded
    from them. *)
From Coq Require Import Sorted NArith.
From Verif Require Import Base M_Graph M_Range M_Netlist M_Annot M_Interval M_Heap M_Drivers M_Pending M_DFA M_Builder M_Slice M_Port
  S_Interval S_Drivers S_DFA S_Builder S_Slice S_Port P_Builder P_Slice2 P_Interval P_Port P_Port2 P_Port3.

(** * C53: the nodes of a port are its driver ranges split at the recorded cuts: pairwise
    disjoint when the ranges are, covering the same bits, none crossing a cut. *)
Theorem c53_partition : forall hints s port sy ds s',
  ascending ds -> (forall hs, hints sy = Some hs -> StronglySorted lt hs) ->
  materializePortNodes hints s port (Some sy) ds = DOk s' ->
  exists new, bnodes s' = bnodes s ++ new /\ map fst new = seq (bnext s) (length new) /\
    (* every node is a part of a driver range whose ends are ends of the range or cuts *)
    (forall n k, In (n, k) new -> exists lo hi a b x, k = BPort port (zrange lo hi) /\ In (a, b, x) ds /\
       a <= lo <= hi /\ hi <= b /\
       (lo = a \/ exists hs, hints sy = Some hs /\ In lo hs) /\ (hi = b \/ exists hs, hints sy = Some hs /\ In (hi + 1) hs) /\
       (forall hs c, hints sy = Some hs -> In c hs -> ~ lo < c <= hi)) /\
    (* the bits are those of the ranges *)
    (forall i, (exists n lo hi, In (n, BPort port (zrange lo hi)) new /\ lo <= i <= hi) <-> exists a b x, In (a, b, x) ds /\ a <= i <= b) /\
    (ranges_apart ds -> forall p n lo hi q n' lo' hi' r,
       new = p ++ (n, BPort port (zrange lo hi)) :: q ++ (n', BPort port (zrange lo' hi')) :: r -> hi < lo' \/ hi' < lo) /\
    (* exactly these are registered for the port *)
    exists ops, bvt s' = vt_run (bvt s) ops /\
      forall o, In o ops <-> exists b n, o = (port, b, n) /\ In (n, BPort port b) new.
Proof.
  intros hints s port sy ds s' A S E.
  destruct (materialize_nodes hints s port sy ds s' A S E) as (new & H1 & H2 & H3 & H4 & H5 & H6 & H7).
  exists new. split; [exact H1|]. split; [exact H2|]. split; [exact H5|]. split; [exact H6|]. split; [exact H7|]. eauto.
Qed.
Print Assumptions c53_partition.

(** For a symbol not driven so far and disjoint ranges this never fails, and every bit of
    an input range is driven by exactly the node that carries it. *)
Theorem c53_input_drivers : forall hints s port sy ds,
  ascending ds -> ranges_apart ds -> (forall hs, hints sy = Some hs -> StronglySorted lt hs) -> bdm s sy = None ->
  exists s' new, materializePortNodes hints s port (Some sy) ds = DOk s' /\ bnodes s' = bnodes s ++ new /\
    (forall i n, drives_global (bdm s') sy (Z.of_nat i) n <->
       exists lo hi a b, In (n, BPort port (zrange lo hi)) new /\ lo <= i <= hi /\ In (a, b, true) ds /\ a <= i <= b) /\
    (forall sy', sy' <> sy -> bdm s' sy' = bdm s sy').
Proof. exact materialize_inputs. Qed.
Print Assumptions c53_input_drivers.

(** A port without a value behind it gets no node. *)
Theorem c53_no_internal : forall hints s port ds, materializePortNodes hints s port None ds = DOk s.
Proof. reflexivity. Qed.
Print Assumptions c53_no_internal.

Definition s0 : bld := Bld 0 [] vt_empty (fun _ => None) [] [].
Example c53_ex : exists s', materializePortNodes (fun _ => Some [2; 6]) s0 7 (Some 8) [(0, 3, true); (4, 7, false)] = DOk s' /\
  bnodes s' = [(0, BPort 7 (zrange 0 1)); (1, BPort 7 (zrange 2 3)); (2, BPort 7 (zrange 4 5)); (3, BPort 7 (zrange 6 7))].
Proof. eexists. split; [vm_compute; reflexivity|]. reflexivity. Qed.
Example c53_ex_drives : exists s', materializePortNodes (fun _ => Some [2]) s0 7 (Some 8) [(0, 3, true)] = DOk s' /\
  drives_global (bdm s') 8 3%Z 1.
Proof.
  eexists. split; [vm_compute; reflexivity|]. eexists. split; [cbn; reflexivity|].
  exists (IV 2%Z 3%Z 1%nat), [1]. split; [cbn; auto|]. cbn. split; [lia|auto].
Qed.

(** * C77: the formal side of a connection covers the port without gap or overlap, and
    every slice names exactly the nodes that carry its bits. *)
Theorem c77_formal_side : forall V m w, in_port m w -> 0 < w ->
  tiled 0 (@buildPortSliceList V m w) w /\
  forall s k, In s (@buildPortSliceList V m w) -> clo s <= k < chi s ->
    (forall n, (exists a b, In (SPort n a b) (srcs s)) <-> carries m n k) /\
    forall x, In x (srcs s) -> exists n, x = SPort n (clo s) (chi s).
Proof. exact @port_list_spec. Qed.
Print Assumptions c77_formal_side.

(** A port of width zero has no slice. *)
Theorem c77_zero_width : forall V m, @buildPortSliceList V m 0 = [].
Proof. reflexivity. Qed.
Print Assumptions c77_zero_width.

(** "Each segment spans exactly one port node (by construction of the formal slicelist)",
    PortConnectionHandler.hpp 63-65: false for an inout port, whose nodes overlap. *)
Theorem c77_single_node_refuted :
  ~ (forall m w, in_port m w -> 0 < w -> forall s, In s (@buildPortSliceList bool m w) -> exists n a b, srcs s = [SPort n a b]).
Proof.
  intros H. destruct (H [IV 0%Z 3%Z 1; IV 0%Z 1%Z 2] 4) with (s := @Slice bool 0 2 [SPort 1 0 2; SPort 2 0 2]) as (n & a & b & E);
    [intros x [<-|[<-|[]]]; cbn; lia|lia|now left|discriminate].
Qed.
Print Assumptions c77_single_node_refuted.

Example c77_ex : @buildPortSliceList bool [IV 0%Z 3%Z 1; IV 0%Z 1%Z 2] 6 =
  [Slice 0 2 [SPort 1 0 2; SPort 2 0 2]; Slice 2 4 [SPort 1 2 4]; Slice 4 6 []].
Proof. reflexivity. Qed.

(** * C78: port connections connect bit by bit.  [visit]: the paths of an expression, used
    for operands that are not passed through bit by bit. *)
Definition origin {V} (vz : V) (visit : expr V -> list path) (e : expr V) (k s i : nat) : Prop :=
  In (ABit (Some s) i) (nth k (bits vz e) []) \/ exists e', In (AOpq e') (nth k (bits vz e) []) /\ visits visit e' s i.
(** Full statement, for expressions in which every select is typed. *)
Definition Full_c78_input : Prop := forall V (vz : V) visit m w e,
  in_port m w -> 0 < w -> typed (fun p w => proot p <> None /\ 0 < w) e -> ew e = w ->
  exists l, handlePortConnection vz visit true true false m w e = Some l /\
    (forall n s i, reads_bit l n s i <-> exists k, k < w /\ carries m n k /\ origin vz visit e k s i) /\
    (forall n s i, ~ drives_bit l n s i).
Definition Full_c78_output : Prop := forall V (vz : V) visit m w e,
  in_port m w -> 0 < w -> typed (fun _ _ => False) e -> ew e = w ->
  exists l, handlePortConnection vz visit true true true m w e = Some l /\
    (forall n s i, drives_bit l n s i <-> exists k, k < w /\ carries m n k /\ origin vz visit e k s i) /\
    (forall n s i, ~ reads_bit l n s i).

(** The paths that occur in an expression: what visitPaths reports for plain operands. *)
Definition one_path (p : path) : expr bool -> list path := fun _ => [p].
Definition xx : path := Path (Some 5) 0 3.

(** False for inputs: for x[i] with a variable index only the lowest bit of the prefix is
    read, whatever the index is, and the index is not read. *)
Theorem c78_dynamic_refuted : ~ Full_c78_input.
Proof.
  intros H. destruct (H bool false (one_path xx) [IV 0%Z 0%Z 1] 1 (EDyn xx 1 [] (fun l _ => l))) as (l & E & R & _);
    [intros x [<-|[]]; cbn; lia|lia|cbn; split; [lia|split; [discriminate|lia]]|reflexivity|].
  vm_compute in E. injection E as <-.
  destruct (proj2 (R 1 5 3)) as (lo & hi & I & L).
  - exists 0. split; [lia|]. split; [exists (IV 0%Z 0%Z 1); cbn; intuition lia|]. right. eexists. split; [left; reflexivity|].
    exists xx. split; [now left|]. split; [reflexivity|]. cbn. lia.
  - destruct I as [[= <- <-]|[]]. lia.
Qed.
Print Assumptions c78_dynamic_refuted.

(** False for outputs: an actual that is not passed through bit by bit, e.g. an assignment
    pattern, is read by the output port instead of driven by it. *)
Theorem c78_opaque_output_refuted : ~ Full_c78_output.
Proof.
  intros H. destruct (H bool false (one_path xx) [IV 0%Z 3%Z 1] 4 (EOther 4 None [] (fun _ => []))) as (l & E & _ & R);
    [intros x [<-|[]]; cbn; lia|lia|exact I|reflexivity|].
  vm_compute in E. injection E as <-. apply (R 1 5 0). exists 0, 3. split; [now left|lia].
Qed.
Print Assumptions c78_opaque_output_refuted.

(** Proved without such selects: inputs read exactly the origins of their bits, get every
    constant bit, and drive nothing. *)
Theorem c78_input_partial : forall V (vz : V) visit m w e,
  in_port m w -> 0 < w -> typed (fun _ _ => False) e -> ew e = w ->
  exists l, handlePortConnection vz visit true true false m w e = Some l /\
    (forall n s i, reads_bit l n s i <-> exists k, k < w /\ carries m n k /\ origin vz visit e k s i) /\
    (forall n s i, ~ drives_bit l n s i) /\
    (forall n c, (exists v ns, In (PConst v ns) l /\ In n ns /\ In c v) <->
       exists k, k < w /\ carries m n k /\ In (AConst c) (nth k (bits vz e) [])).
Proof. exact @connection_in. Qed.
Print Assumptions c78_input_partial.

(** Outputs drive exactly the bits that are passed through; what is read instead is
    exactly the operands that are not. *)
Theorem c78_output_partial : forall V (vz : V) visit m w e,
  in_port m w -> 0 < w -> typed (fun _ _ => False) e -> ew e = w ->
  exists l, handlePortConnection vz visit true true true m w e = Some l /\
    (forall n s i, drives_bit l n s i <-> exists k, k < w /\ carries m n k /\ In (ABit (Some s) i) (nth k (bits vz e) [])) /\
    (forall n s i, reads_bit l n s i <-> exists k, k < w /\ carries m n k /\
       exists e', In (AOpq e') (nth k (bits vz e) []) /\ visits visit e' s i) /\
    (forall v ns, ~ In (PConst v ns) l).
Proof. exact @connection_out. Qed.
Print Assumptions c78_output_partial.

(** So an output is connected as stated when every bit is passed through. *)
Theorem c78_output_lvalue_partial : forall V (vz : V) visit m w e,
  in_port m w -> 0 < w -> typed (fun _ _ => False) e -> ew e = w ->
  (forall k e', k < w -> ~ In (AOpq e') (nth k (bits vz e) [])) ->
  exists l, handlePortConnection vz visit true true true m w e = Some l /\
    (forall n s i, drives_bit l n s i <-> exists k, k < w /\ carries m n k /\ origin vz visit e k s i) /\
    (forall n s i, ~ reads_bit l n s i).
Proof.
  intros V vz visit m w e P W T Ew N. destruct (connection_out vz visit m w e P W T Ew) as (l & E & D & R & _).
  exists l. split; [exact E|]. split.
  - intros n s i. rewrite D. split; intros (k & K & C & O); exists k; (split; [exact K|]); (split; [exact C|]); [now left|].
    destruct O as [O|(e' & I & _)]; [exact O|destruct (N k e' K I)].
  - intros n s i Q. apply R in Q. destruct Q as (k & K & _ & e' & I & _). exact (N k e' K I).
Qed.
Print Assumptions c78_output_lvalue_partial.

(** Without bit resolution, for types that are not integral and for unequal widths, every
    node of the port gets every path of the actual, whole. *)
Theorem c78_legacy : forall V (vz : V) visit rb integral output m w e,
  rb = false \/ integral = false \/ (0 < w /\ in_port m w /\ typed (fun _ _ => False) e /\ ew e <> w) ->
  exists l, handlePortConnection vz visit rb integral output m w e = Some l /\
    (forall n s i, (if output then drives_bit l n s i else reads_bit l n s i) <->
       (exists x, In x m /\ ival x = n) /\ visits visit e s i) /\
    (forall n s i, ~ (if output then reads_bit l n s i else drives_bit l n s i)) /\
    (forall v ns, ~ In (PConst v ns) l).
Proof.
  intros V vz visit rb integral output m w e H.
  assert (E : handlePortConnection vz visit rb integral output m w e = Some (M_Port.legacy visit m output e)).
  { unfold handlePortConnection. destruct rb, integral; cbn [negb orb]; try reflexivity.
    destruct H as [H|[H|(W & P & T & Ne)]]; try discriminate.
    destruct (port_list_spec (V := V) m w P W) as [Tp _].
    destruct (build_list_spec V vz no_hints e no_hints_sorted T) as (Te & _).
    rewrite (P_Slice.tiled_width V _ _ Tp), (P_Slice.tiled_width V _ _ Te).
    destruct (Nat.eqb_spec w 0); [lia|]. destruct (Nat.eqb_spec w (ew e)); [lia|reflexivity]. }
  exists (M_Port.legacy visit m output e). split; [exact E|].
  assert (In_l : forall a, In a (M_Port.legacy visit m output e) <-> exists p s x, In p (visit e) /\ proot p = Some s /\ In x m /\
     a = if output then PDrive s (plo p) (phi p) (ival x) else PRead s (plo p) (phi p) (ival x)).
  { intros a. unfold M_Port.legacy. rewrite in_flat_map. split.
    - intros (p & Ip & I). destruct (proot p) as [s|] eqn:R; [|destruct I]. apply in_map_iff in I. destruct I as (x & <- & Ix). eauto 10.
    - intros (p & s & x & Ip & R & Ix & ->). exists p. split; [exact Ip|]. rewrite R. apply in_map_iff. eauto. }
  split; [|split].
  - intros n s i. split.
    + destruct output; intros (lo & hi & I & L); apply In_l in I; destruct I as (p & s' & x & Ip & R & Ix & Q);
        injection Q as -> -> -> ->; (split; [eauto|exists p; auto]).
    + intros ((x & Ix & <-) & p & Ip & R & L). destruct output; exists (plo p), (phi p); (split; [apply In_l; eauto 10|exact L]).
  - intros n s i. destruct output; intros (lo & hi & I & L); apply In_l in I; destruct I as (p & s' & x & Ip & R & Ix & Q); discriminate.
  - intros v ns I. apply In_l in I. destruct I as (p & s' & x & Ip & R & Ix & Q). destruct output; discriminate.
Qed.
Print Assumptions c78_legacy.

(** What the builder makes of it.  Reads of symbols other than modport ports are queued,
    one per request; constants become nodes with an edge to each port node. *)
Theorem c78_input_built : forall V (vz : V) visit sykind nm backrefs behind m w e s,
  in_port m w -> 0 < w -> typed (fun _ _ => False) e -> ew e = w ->
  (forall sy d, bdm s sy = Some d -> built d) -> (forall e' p, In p (visit e') -> plo p <= phi p) ->
  exists l s' ps, handlePortConnection vz visit true true false m w e = Some l /\
    apply_acts sykind nm backrefs behind s l = DOk s' /\ (forall sy, bdm s' sy = bdm s sy) /\ bpend s' = bpend s ++ ps /\
    (forall n sy i, sykind sy <> SkModport ->
       ((exists q, In q ps /\ psym q = sy /\ pnode q = Some n /\ bit (pbounds q) (Z.of_nat i)) <->
        exists k, k < w /\ carries m n k /\ origin vz visit e k sy i)) /\
    (forall n k c, k < w -> carries m n k -> In (AConst c) (nth k (bits vz e) []) ->
       exists j, In (j, BConst) (bnodes s') /\ In (DPlain j n) (bdeps s')).
Proof.
  intros V vz visit sykind nm backrefs behind m w e s P W T Ew G Vo.
  destruct (connection_in vz visit m w e P W T Ew) as (l & E & R & D & C).
  assert (Nd : forall sy lo hi n, ~ In (PDrive sy lo hi n) l).
  { intros sy lo hi n I. pose proof (connection_ordered vz visit false m w e l P W T Ew E sy lo hi n I).
    apply (D n sy lo). exists lo, hi. auto. }
  destruct (apply_all sykind nm backrefs behind l s) as (s' & E' & _ & _ & _ & _ & Pd & _ & _ & Cn & Dm).
  { intros sy d Q. apply built_ok, (G sy d Q). }
  { intros sy lo hi n I. destruct (Nd sy lo hi n I). }
  exists l, s', (flat_map (act_pend sykind nm) l). split; [exact E|]. split; [exact E'|]. split; [|split; [exact Pd|split]].
  - intros sy. apply Dm. intros lo hi n. apply Nd.
  - intros n sy i Nm. unfold origin. rewrite <- R. split.
    + intros (q & I & Q1 & Q2 & B). apply in_flat_map in I. destruct I as (a & Ia & I). destruct a as [sy' lo hi n'|sy' lo hi n'|v ns]; cbn in I; [destruct I| |destruct I].
      assert (I' : In q [Pend sy' (nm sy') (zrange lo hi) (Some n') EKNone]) by (destruct (sykind sy'); [destruct I|exact I|exact I]).
      destruct I' as [<-|[]]. cbn in Q1, Q2, B. subst sy'. injection Q2 as ->. exists lo, hi. split; [exact Ia|].
      pose proof (connection_reads_ordered vz visit false m w e l P W T Ew Vo E _ _ _ _ Ia).
      unfold bit, zrange in B. cbn in B. lia.
    + intros (lo & hi & I & L). exists (Pend sy (nm sy) (zrange lo hi) (Some n) EKNone). split.
      * apply in_flat_map. exists (PRead sy lo hi n). split; [exact I|]. cbn. destruct (sykind sy); try (now left). now destruct Nm.
      * split; [reflexivity|]. split; [reflexivity|]. unfold bit, zrange. cbn. lia.
  - intros n k c K Ck Ic. destruct (proj2 (C n c)) as (v & ns & I & In_ & _); [exists k; auto|].
    destruct (Cn v ns I) as (j & J1 & J2). exists j. auto.
Qed.
Print Assumptions c78_input_built.

(** Drivers asked for are drivers afterwards; none is lost, symbols not named keep theirs. *)
Theorem c78_output_built : forall V (vz : V) visit sykind nm backrefs behind m w e s,
  in_port m w -> 0 < w -> typed (fun _ _ => False) e -> ew e = w ->
  (forall sy d, bdm s sy = Some d -> built d) ->
  exists l s', handlePortConnection vz visit true true true m w e = Some l /\
    apply_acts sykind nm backrefs behind s l = DOk s' /\
    (forall n k sy i, k < w -> carries m n k -> In (ABit (Some sy) i) (nth k (bits vz e) []) -> drives_global (bdm s') sy (Z.of_nat i) n) /\
    (forall sy i n, drives_global (bdm s) sy i n -> drives_global (bdm s') sy i n) /\
    (forall sy, (forall k i, k < w -> ~ In (ABit (Some sy) i) (nth k (bits vz e) [])) -> bdm s' sy = bdm s sy).
Proof.
  intros V vz visit sykind nm backrefs behind m w e s P W T Ew G.
  destruct (connection_out vz visit m w e P W T Ew) as (l & E & D & R & C).
  destruct (apply_all sykind nm backrefs behind l s) as (s' & E' & _ & _ & _ & _ & _ & Kp & Dr & _ & Dm).
  { intros sy d Q. apply built_ok, (G sy d Q). }
  { intros sy lo hi n I. exact (connection_ordered vz visit true m w e l P W T Ew E sy lo hi n I). }
  exists l, s'. split; [exact E|]. split; [exact E'|]. split; [|split; [exact Kp|]].
  - intros n k sy i K Ck I. destruct (proj2 (D n sy i)) as (lo & hi & Ia & L); [exists k; auto|]. exact (Dr sy lo hi n i Ia L).
  - intros sy N. apply Dm. intros lo hi n I. pose proof (connection_ordered vz visit true m w e l P W T Ew E sy lo hi n I).
    destruct (proj1 (D n sy lo)) as (k & K & _ & Q); [exists lo, hi; auto|]. exact (N k lo K Q).
Qed.
Print Assumptions c78_output_built.

(** Port bits 3..2 and 1..0 on separate nodes, actual {a, b[3:2], 1'b1}. *)
Definition e_in : expr bool := EConcat 4 [ELsp (Path (Some 5) 0 0) 1; ELsp (Path (Some 6) 2 3) 2; EOther 1 (Some [true]) [] (fun _ => [true])].
Example c78_ex_in : handlePortConnection false (fun _ => []) true true false [IV 0%Z 1%Z 1; IV 2%Z 3%Z 2] 4 e_in =
  Some [PConst [true] [1]; PRead 6 2 2 1; PRead 6 3 3 2; PRead 5 0 0 2].
Proof. vm_compute. reflexivity. Qed.
Example c78_ex_out : handlePortConnection false (fun _ => []) true true true [IV 0%Z 1%Z 1; IV 2%Z 3%Z 2] 4
    (EConcat 4 [ELsp (Path (Some 5) 0 0) 1; ELsp (Path (Some 6) 2 4) 3]) =
  Some [PDrive 6 2 3 1; PDrive 6 4 4 2; PDrive 5 0 0 2].
Proof. vm_compute. reflexivity. Qed.

(** * C79: the cuts recorded for the symbol behind a port are exactly the interior slice
    boundaries of the actual, so that port nodes never straddle one. *)
Definition Full_c79 : Prop := forall V (vz : V) symw g (xs : list (@pconn V)) s c, reg_sorted g ->
  (forall x, In x xs -> forall sy e, eligible x sy e -> typed (fun _ _ => False) e /\ symw sy = N.of_nat (ew e)) ->
  (has_cut (recordCuts symw g xs) s c <-> has_cut g s c \/
    exists p x q e, xs = p ++ x :: q /\ eligible x s e /\ 0 < c < ew e /\
      boundary (build vz (hints_of (recordCuts symw g p)) e []) c).

Lemma empty_sorted : reg_sorted reg_empty.
Proof. intros s l E. discriminate. Qed.

(** False: the cuts of the branches of a conditional are not collected, although its
    slices are cut there. *)
Definition e_cond : expr bool :=
  ECond 2 true (ELsp (Path (Some 4) 0 0) 1)
    (EConcat 2 [ELsp (Path (Some 5) 0 0) 1; ELsp (Path (Some 6) 0 0) 1]) (ELsp (Path (Some 7) 0 1) 2) (fun _ a _ => a).
Theorem c79_conditional_refuted : ~ Full_c79.
Proof.
  intros H. destruct (proj2 (H bool false (fun _ => 2%N) reg_empty [Conn (Some 9) 2 true (Some e_cond)] 9 1 empty_sorted
    ltac:(intros x [<-|[]] sy e (Q & _); injection Q as <-; cbn; repeat split; try lia; intros; cbn; repeat split; try lia; discriminate))) as (l & E & I).
  - right. exists [], (Conn (Some 9) 2 true (Some e_cond)), [], e_cond. split; [reflexivity|]. split; [repeat split|]. split; [cbn; lia|].
    eexists. split; [vm_compute; left; reflexivity|reflexivity].
  - vm_compute in E. discriminate.
Qed.
Print Assumptions c79_conditional_refuted.

(** False the other way too: a conversion that folds to a constant is one slice, but the
    cuts inside it are collected. *)
Definition e_fold : expr bool :=
  EConv 2 false false false (Some [true; true]) (EConcat 2 [EOther 1 (Some [true]) [] (fun _ => [true]); EOther 1 (Some [true]) [] (fun _ => [true])]).
Theorem c79_folded_refuted : ~ Full_c79.
Proof.
  intros H. destruct (proj1 (H bool false (fun _ => 2%N) reg_empty [Conn (Some 9) 2 true (Some e_fold)] 9 1 empty_sorted
    ltac:(intros x [<-|[]] sy e (Q & _); injection Q as <-; cbn; repeat split; right; repeat split))) as [Q|(p & x & q & e & E & El & L & B)].
  - eexists. split; [vm_compute; reflexivity|]. vm_compute. auto.
  - destruct Q as (l & E & _). discriminate.
  - destruct p as [|y p]; [|destruct p; discriminate]. cbn [app] in E. injection E as E _. subst x. destruct El as (El & _). cbn in El. injection El as <-.
    destruct B as (t & I & C). vm_compute in I. destruct I as [<-|[]]. cbn in C. lia.
Qed.
Print Assumptions c79_folded_refuted.

(** Proved for actuals without conditionals and folded conversions. *)
Theorem c79_recorded_partial : forall V (vz : V) symw g (xs : list (@pconn V)) s c, reg_sorted g ->
  (forall x, In x xs -> forall sy e, eligible x sy e ->
     typed (fun _ _ => False) e /\ concat_shaped e /\ symw sy = N.of_nat (ew e)) ->
  (has_cut (recordCuts symw g xs) s c <-> has_cut g s c \/
    exists p x q e, xs = p ++ x :: q /\ eligible x s e /\ 0 < c < ew e /\
      boundary (build vz (hints_of (recordCuts symw g p)) e []) c).
Proof.
  intros V vz symw g xs s c S T. rewrite !has_cut_iff. exact (recorded vz symw g xs s c S T).
Qed.
Print Assumptions c79_recorded_partial.

(** Registries stay sorted. *)
Theorem c79_sorted : forall V symw g (xs : list (@pconn V)), reg_sorted g -> reg_sorted (recordCuts symw g xs).
Proof. intros. now apply recordCuts_sorted. Qed.
Print Assumptions c79_sorted.

(** No node of the port straddles a slice boundary of its actual. *)
Theorem c79_no_straddle_partial : forall V (vz : V) symw g (xs : list (@pconn V)) x sy e bs port ds s' n lo hi c, reg_sorted g ->
  (forall x, In x xs -> forall sy e, eligible x sy e ->
     typed (fun _ _ => False) e /\ concat_shaped e /\ symw sy = N.of_nat (ew e)) ->
  In x xs -> eligible x sy e -> ascending ds ->
  materializePortNodes (hints_of (recordCuts symw g xs)) bs port (Some sy) ds = DOk s' ->
  In (n, BPort port (zrange lo hi)) (skipn (length (bnodes bs)) (bnodes s')) ->
  boundary (build vz (hints_of g) e []) c -> c < ew e -> ~ lo < c <= hi.
Proof. exact @no_straddle. Qed.
Print Assumptions c79_no_straddle_partial.

Example c79_ex : cutsFor (recordCuts (fun _ => 4%N) (fun s => if Nat.eqb s 6 then Some [3%N] else None)
    [Conn (Some 9) 4 true (Some (EConcat 4 [ELsp (Path (Some 5) 0 0) 1; ELsp (Path (Some 6) 2 4) 3]) : option (expr bool))]) 9 = Some [1%N; 3%N].
Proof. vm_compute. reflexivity. Qed.
