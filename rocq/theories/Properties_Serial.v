(** Properties C41 and C42: saving and loading a netlist. *)
From Coq Require Import Ascii String.
From Verif Require Import Base M_Range M_Graph S_Graph P_Graph M_Netlist M_Intern S_Intern M_Serial S_Serial
  P_Serial P_Serial2 P_Serial3.

(** * C41.  What loading a saved graph gives, for every graph the builder can make and
    every constant-value type: the same file table, black boxes and node list; constants
    through their text, ranges made ascending; per node the same out-edges in order, but
    with parallel edges to one target merged (first place, last members); fresh
    consecutive IDs. *)
Theorem c41_round_trip_exact : forall cval (cbad : cval) ctext cparse (g : nlg cval) next, Storable g ->
  exists g', deserialize cbad cparse next (serialize ctext g) nl_empty = (g', Ok tt) /\
    lfiles g' = lfiles g /\ lbox g' = lbox g /\
    view g' = map (fun x => (norm_data cbad ctext cparse (fst x), collapse (map norm_edge (snd x)))) (view g) /\
    map (lid g') (gnodes (lg g')) = map (fun i => (next + Z.of_nat i)%Z) (seq 0 (length (gnodes (lg g)))).
Proof. exact round_trip. Qed.
Print Assumptions c41_round_trip_exact.

(** Merging loses no target and leaves no repeated one. *)
Theorem c41_merge_keeps_targets : forall l t, In t (map fst (collapse l)) <-> In t (map fst l).
Proof. exact collapse_targets. Qed.
Print Assumptions c41_merge_keeps_targets.
Theorem c41_merge_no_repeats : forall l, NoDup (map fst (collapse l)).
Proof. exact collapse_nodup. Qed.
Print Assumptions c41_merge_no_repeats.

(** Full statement: the last three conclusions below for every [Storable] graph.  True
    when ranges are ascending, constants survive their text form and no two edges share
    both ends. *)
Theorem c41_round_trip_partial : forall cval (cbad : cval) ctext cparse (g : nlg cval) next,
  Storable g -> Plain cbad ctext cparse g -> NoParallel g ->
  exists g', deserialize cbad cparse next (serialize ctext g) nl_empty = (g', Ok tt) /\
    lfiles g' = lfiles g /\ lbox g' = lbox g /\ view g' = view g.
Proof. exact round_trip_exact. Qed.
Print Assumptions c41_round_trip_partial.

(** ** Examples. Constants are texts; every text but the empty one reads back. *)
Definition lc0 : loc := Loc 0 1 2.
Definition sy (n : string) : sym := Sym (lit n) (lit n) lc0.
Definition nl_node (g : nlg str) d : nlg str := fst (addNodeData g d (Z.of_nat (S (nextn (lg g))))).
Definition nl_edge (g : nlg str) a b (d : edata) : nlg str :=
  let (gr, e) := node_addNewEdge outEdgeIndexThreshold (lg g) a b in
  NL (lfiles g) (lbox g) gr (lnode g) (lid g) (upd (ledge g) (eid e) d) (lsyms g).
Definition g0 : nlg str :=
  let g := NL [lit "a.sv"; lit "b.sv"] [lit "top.bb"] empty_graph (fun _ => DNone) (fun _ => 0%Z)
              (fun _ => edge0) [sy "x"; sy "y"] in
  let g := nl_node g (DPort (lit "x") (lit "top.x") lc0 DOut (Range 0 3)%Z) in
  let g := nl_node g (DConstant (lit "4'd3") 4 lc0) in
  let g := nl_node g (DAssignment lc0) in
  let g := nl_edge g 1 2 (ED EKNone (Some 1) (Range 0 3)%Z false) in
  nl_edge g 2 0 (ED EKPos (Some 0) (Range 0 1)%Z true).
(** One more edge between the same two nodes, for the other half of the bits. *)
Definition g1 : nlg str := nl_edge g0 2 0 (ED EKNone (Some 0) (Range 2 3)%Z false).
Definition deser_str := deserialize ([] : str) (fun s : str => Some s).
Definition ser_str := @serialize str (fun s => s).

Lemma ok_lc0 : ok_loc lc0.
Proof. unfold ok_loc, in_u32, in_u64. cbn. lia. Qed.
Lemma g1_reach : reachable outEdgeIndexThreshold (lg g1).
Proof. exists [OAddNode; OAddNode; OAddNode; OAddNewEdge 1 2; OAddNewEdge 2 0; OAddNewEdge 2 0]. eexists. reflexivity. Qed.
Lemma g0_reach : reachable outEdgeIndexThreshold (lg g0).
Proof. exists [OAddNode; OAddNode; OAddNode; OAddNewEdge 1 2; OAddNewEdge 2 0]. eexists. reflexivity. Qed.
Ltac rng := unfold ok_range, in_i32, in_u64; cbn; lia.
Ltac in_cases H := cbn in H; repeat (destruct H as [<-|H]; [|]); try (destruct H).
Lemma g0_storable : Storable g0.
Proof.
  constructor.
  - exact g0_reach.
  - cbn. repeat constructor; cbn; intuition discriminate.
  - intros n H. in_cases H; rng.
  - cbn. repeat constructor; cbn; intuition discriminate.
  - cbn. repeat constructor; cbn; intuition discriminate.
  - intros n H. in_cases H; exact ok_lc0.
  - intros n H. in_cases H; cbn; repeat split; try exact ok_lc0; rng.
  - intros n e H1 H2. in_cases H1; in_cases H2; cbn; (split; [rng|intros i [= <-]; lia]).
Qed.
Lemma g1_storable : Storable g1.
Proof.
  constructor.
  - exact g1_reach.
  - cbn. repeat constructor; cbn; intuition discriminate.
  - intros n H. in_cases H; rng.
  - cbn. repeat constructor; cbn; intuition discriminate.
  - cbn. repeat constructor; cbn; intuition discriminate.
  - intros n H. in_cases H; exact ok_lc0.
  - intros n H. in_cases H; cbn; repeat split; try exact ok_lc0; rng.
  - intros n e H1 H2. in_cases H1; in_cases H2; cbn; (split; [rng|intros i [= <-]; lia]).
Qed.
Example c41_round_trip_partial_nonvacuous :
  Storable g0 /\ Plain ([] : str) (fun s => s) (fun s => Some s) g0 /\ NoParallel g0 /\
  edge_count (view g0) = 2.
Proof.
  split; [exact g0_storable|]. split; [|split; [|reflexivity]].
  - unfold Plain. let v := eval vm_compute in (view g0) in change (view g0) with v.
    repeat (apply Forall_cons || apply Forall_nil || split); unfold plain_data, plain_range; cbn; try lia; reflexivity.
  - intros n H. in_cases H; cbn; repeat constructor; cbn; tauto.
Qed.
Example c41_g0_loads : let (g', r) := deser_str 7 (ser_str g0) nl_empty in
  r = Ok tt /\ view g' = view g0 /\ lfiles g' = lfiles g0 /\ lbox g' = lbox g0 /\
  map (lid g') (gnodes (lg g')) = [7; 8; 9]%Z.
Proof. vm_compute. repeat split. Qed.

(** As worded the property is false: a graph with two edges between the same nodes loads
    without error and has lost one of them, bits and clock edge included. *)
Theorem c41_round_trip_refuted : exists g : nlg str, Storable g /\
  exists g', deser_str 1 (ser_str g) nl_empty = (g', Ok tt) /\
    edge_count (view g) = 3 /\ edge_count (view g') = 2 /\
    existsb (fun x => existsb (fun y => match vkind (snd y) with EKPos => true | _ => false end) (snd x)) (view g) = true /\
    existsb (fun x => existsb (fun y => match vkind (snd y) with EKPos => true | _ => false end) (snd x)) (view g') = false.
Proof.
  exists g1. split; [exact g1_storable|]. eexists. split; [vm_compute; reflexivity|]. vm_compute. auto.
Qed.
Print Assumptions c41_round_trip_refuted.

(** The precondition that IDs differ matters: with equal IDs the edges of the first node
    are loaded on the second.  (NetlistBuilder resets NetlistNode::nextID, so IDs repeat if
    two builders fill one graph.) *)
Definition g2 : nlg str := NL (lfiles g0) (lbox g0) (lg g0) (lnode g0) (fun n => if Nat.eqb n 0 then 2%Z else Z.of_nat (S n)) (ledge g0) (lsyms g0).
Theorem c41_equal_ids_refuted : exists g',
  deser_str 1 (ser_str g2) nl_empty = (g', Ok tt) /\
  map (fun x => map fst (snd x)) (view g2) = [[]; [2]; [0]] /\
  map (fun x => map fst (snd x)) (view g') = [[]; [2]; [1]].
Proof. eexists. split; [vm_compute; reflexivity|]. vm_compute. auto. Qed.
Print Assumptions c41_equal_ids_refuted.

(** * C42: the codecs are one to one, with the decoder as left inverse. *)
Theorem c42_kind_codec : forall k, nodeKindFromString (nodeKindToString k) = k.
Proof. exact kind_codec. Qed.
Print Assumptions c42_kind_codec.
Theorem c42_edge_kind_codec : forall k, edgeKindFromString (edgeKindToString k) = k.
Proof. exact edgeKind_codec. Qed.
Print Assumptions c42_edge_kind_codec.
Theorem c42_direction_codec : forall d, directionFromString (directionToString d) = d.
Proof. exact direction_codec. Qed.
Print Assumptions c42_direction_codec.
Theorem c42_codecs_injective :
  (forall a b, nodeKindToString a = nodeKindToString b -> a = b) /\
  (forall a b, edgeKindToString a = edgeKindToString b -> a = b) /\
  (forall a b, directionToString a = directionToString b -> a = b).
Proof.
  repeat split; intros a b H.
  - now rewrite <- (kind_codec a), H, kind_codec.
  - now rewrite <- (edgeKind_codec a), H, edgeKind_codec.
  - now rewrite <- (direction_codec a), H, direction_codec.
Qed.
Print Assumptions c42_codecs_injective.
(** The texts written are the ones documented. *)
Example c42_texts_known :
  map nodeKindToString [KNone; KPort; KVariable; KAssignment; KConditional; KCase; KMerge; KState; KConstant] =
    map lit known_kinds /\
  map edgeKindToString [EKNone; EKPos; EKNeg; EKBoth] = map lit known_edge_kinds /\
  map directionToString [DIn; DOut; DInOut; DRef] = map lit known_directions.
Proof. repeat split. Qed.

(** Whatever the document, and whether it is accepted or not, the container that is left
    behind is well formed: no dangling end points. *)
Theorem c42_container_well_formed : forall cval (cbad : cval) cparse next j,
  Mirror (lg (fst (deserialize cbad cparse next j nl_empty))).
Proof.
  intros. apply (c01 outEdgeIndexThreshold), deser_reachable. exists [], []. reflexivity.
Qed.
Print Assumptions c42_container_well_formed.

(** Full statement: an accepted document is [Conforming].  True of what is accepted: the
    version is 3 modulo 2^32, every element of nodes decodes and gives one node, and every
    edge's ends are IDs of elements of nodes. *)
Theorem c42_accepted_partial : forall cval (cbad : cval) cparse next j (g g' : nlg cval),
  reachable outEdgeIndexThreshold (lg g) -> deserialize cbad cparse next j g = (g', Ok tt) ->
  exists v nj ej,
    field j "version" = Ok v /\ ((exists z, v = JNum z /\ (z mod 4294967296 = 3)%Z) \/ v = JFlt 3) /\
    field j "nodes" = Ok nj /\ field j "edges" = Ok ej /\
    length (gnodes (lg g')) = length (gnodes (lg g)) + length (elems nj) /\
    Forall (fun n => exists id d, nodeFromJson cbad cparse n = Ok (id, d)) (elems nj) /\
    Forall (fun e => exists s t, rd e "source" = Ok s /\ rd e "target" = Ok t /\
                                 declared nj s /\ declared nj t) (elems ej).
Proof. exact accepted. Qed.
Print Assumptions c42_accepted_partial.
Example c42_accepted_partial_nonvacuous :
  snd (deser_str 1 (ser_str g0) nl_empty) = Ok tt /\ Conforming (ser_str g0).
Proof.
  split; [vm_compute; reflexivity|].
  assert (F : forall j k s l, In s l -> field j k = Ok (JStr (lit s)) -> str_field j k l) by (intros; eexists; eauto).
  constructor.
  - reflexivity.
  - eexists. split; [reflexivity|]. repeat constructor; try (eexists; reflexivity);
      try (intros Q; vm_compute in Q; discriminate);
      try (intros _; apply (F _ _ "Out"%string); [cbn; tauto|reflexivity]).
    + apply (F _ _ "Port"%string); [cbn; tauto|reflexivity].
    + apply (F _ _ "Constant"%string); [cbn; tauto|reflexivity].
    + apply (F _ _ "Assignment"%string); [cbn; tauto|reflexivity].
  - vm_compute. repeat constructor; cbn; intuition discriminate.
  - eexists. split; [reflexivity|]. repeat constructor; try (eexists; reflexivity).
    + apply (F _ _ "None"%string); [cbn; tauto|reflexivity].
    + exists 2%Z. split; [reflexivity|vm_compute; auto].
    + exists 3%Z. split; [reflexivity|vm_compute; auto].
    + apply (F _ _ "PosEdge"%string); [cbn; tauto|reflexivity].
    + exists 3%Z. split; [reflexivity|vm_compute; auto].
    + exists 1%Z. split; [reflexivity|vm_compute; auto].
Qed.
(** Rejected: wrong version, an edge to nowhere, a missing field. *)
Definition jdoc (v : Z) (ns es : list json) : json :=
  JObj [(lit "version", JNum v); (lit "fileTable", JArr []); (lit "nodes", JArr ns); (lit "edges", JArr es)].
Definition jnode (id : Z) (k : string) : json := JObj [(lit "id", JNum id); (lit "kind", JStr (lit k))].
Definition jedge (s t : Z) (k : string) (sy : json) : json :=
  JObj [(lit "source", JNum s); (lit "target", JNum t); (lit "edgeKind", JStr (lit k)); (lit "symbol", sy);
        (lit "bounds", JArr [JNum 0; JNum 0]); (lit "disabled", JBool false)].
Example c42_rejects :
  snd (deser_str 1 (jdoc 2 [] []) nl_empty) = Throw /\
  snd (deser_str 1 (jdoc 3 [jnode 1 "Merge"] [jedge 1 2 "None" (JObj [])]) nl_empty) = Throw /\
  snd (deser_str 1 (jdoc 3 [jnode 1 "Port"] []) nl_empty) = Throw /\
  snd (deser_str 1 (jdoc 3 [jnode 1 "Merge"] [jedge 1 1 "None" (JObj [])]) nl_empty) = Ok tt.
Proof. vm_compute. auto. Qed.

(** As worded the property is false, in six ways: a misspelt node kind, edge kind or
    direction, a version that only wraps to 3, a repeated node ID, a symbol that is not an
    object. *)
Definition jport (d : string) : json :=
  JObj [(lit "id", JNum 1); (lit "kind", JStr (lit "Port")); (lit "name", JStr (lit "p")); (lit "path", JStr (lit "p"));
        (lit "bounds", JArr [JNum 0; JNum 0]); (lit "direction", JStr (lit d)); (lit "location", locationToJson lc0)].
Definition bad_docs : list json :=
  [jdoc 3 [jnode 1 "Mrege"] [];
   jdoc 3 [jnode 1 "Merge"; jnode 2 "Merge"] [jedge 1 2 "posedge" (JObj [])];
   jdoc 3 [jport "out"] [];
   jdoc 4294967299 [] [];
   jdoc 3 [jnode 1 "Merge"; jnode 1 "Merge"] [jedge 1 1 "None" (JObj [])];
   jdoc 3 [jnode 1 "Merge"] [jedge 1 1 "None" (JNum 5)]].
Theorem c42_accepts_malformed_refuted :
  Forall (fun j => snd (deser_str 1 j nl_empty) = Ok tt /\ ~ Conforming j) bad_docs.
Proof.
  repeat constructor; try (vm_compute; reflexivity); intros [V (l & N & NF) I (k & E & EF)].
  - inversion N; subst. inversion NF as [|? ? (_ & (s & S1 & S2) & _)]; subst.
    cbn in S1. repeat (destruct S1 as [<-|S1]; [discriminate S2|]). destruct S1.
  - inversion E; subst. inversion EF as [|? ? ((s & S1 & S2) & _)]; subst.
    cbn in S1. repeat (destruct S1 as [<-|S1]; [discriminate S2|]). destruct S1.
  - inversion N; subst. inversion NF as [|? ? (_ & _ & D)]; subst. destruct (D eq_refl) as (s & S1 & S2).
    cbn in S1. repeat (destruct S1 as [<-|S1]; [discriminate S2|]). destruct S1.
  - discriminate V.
  - change (node_ids _) with [1; 1]%Z in I. apply NoDup_cons_iff in I. destruct I as [I _]. apply I. now left.
  - inversion E; subst. inversion EF as [|? ? (_ & (o & O) & _)]; subst. discriminate O.
Qed.
Print Assumptions c42_accepts_malformed_refuted.
(** The misspelt direction turns an output port into an input port. *)
Example c42_misspelt_direction :
  lnode (fst (deser_str 1 (jdoc 3 [jport "out"] []) nl_empty)) 0 = DPort (lit "p") (lit "p") lc0 DIn (Range 0 0)%Z.
Proof. reflexivity. Qed.

(** Nor is loading all or nothing: nodes read before an error stay in the graph. *)
Theorem c42_all_or_nothing_refuted : exists j,
  snd (deser_str 1 j nl_empty) = Throw /\ gnodes (lg (fst (deser_str 1 j nl_empty))) = [0; 1].
Proof. exists (jdoc 3 [jnode 1 "Merge"; jnode 2 "Merge"; JNull] []). vm_compute. auto. Qed.
Print Assumptions c42_all_or_nothing_refuted.
