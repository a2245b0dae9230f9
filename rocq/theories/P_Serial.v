(** Proofs for the serialiser: codecs and the node loop. *)
From Coq Require Import Ascii String.
From Verif Require Import Base M_Range M_Graph S_Graph P_Graph M_Netlist M_Intern S_Intern P_Intern M_Serial S_Serial.

(** ** Codecs *)
Lemma kind_codec k : nodeKindFromString (nodeKindToString k) = k.
Proof. now destruct k. Qed.
Lemma edgeKind_codec k : edgeKindFromString (edgeKindToString k) = k.
Proof. now destruct k. Qed.
Lemma direction_codec d : directionFromString (directionToString d) = d.
Proof. now destruct d. Qed.

Lemma field_hit k' v r k : str_eqb k' (lit k) = true -> field (JObj ((k', v) :: r)) k = Ok v.
Proof. intros H. cbn [field assoc]. now rewrite H. Qed.
Lemma field_miss k' v r k : str_eqb k' (lit k) = false -> field (JObj ((k', v) :: r)) k = field (JObj r) k.
Proof. intros H. cbn [field assoc]. now rewrite H. Qed.
Lemma has_hit k' v r k : str_eqb k' (lit k) = true -> has (JObj ((k', v) :: r)) k = true.
Proof. intros H. cbn [has assoc]. now rewrite H. Qed.
Lemma has_miss k' v r k : str_eqb k' (lit k) = false -> has (JObj ((k', v) :: r)) k = has (JObj r) k.
Proof. intros H. cbn [has assoc]. now rewrite H. Qed.
Ltac fields := repeat first [rewrite field_hit by reflexivity | rewrite field_miss by reflexivity
                            | rewrite has_hit by reflexivity | rewrite has_miss by reflexivity].

Lemma wrap_id lo m z : (lo <= z < lo + m)%Z -> wrap lo m z = z.
Proof. intros H. unfold wrap. rewrite Z.mod_small; lia. Qed.
Lemma getI32_ok z : in_i32 z -> getI32 (JNum z) = Ok z.
Proof. unfold in_i32. intros H. unfold getI32, getInt. rewrite wrap_id; [reflexivity|unfold p32; lia]. Qed.
Lemma getU32_ok z : in_u32 z -> getU32 (JNum z) = Ok z.
Proof. unfold in_u32. intros H. unfold getU32, getInt. rewrite wrap_id; [reflexivity|unfold p32; lia]. Qed.
Lemma getU64_ok z : in_u64 z -> getU64 (JNum z) = Ok z.
Proof. unfold in_u64. intros H. unfold getU64, getInt. rewrite wrap_id; [reflexivity|unfold p64; lia]. Qed.

Ltac step1 := fields; cbn [bind getStr getBool].

Lemma loc_rt l : ok_loc l -> locationFromJson (locationToJson l) = Ok l.
Proof.
  intros (A & B & C). unfold locationFromJson, locationToJson.
  step1. rewrite getU32_ok by assumption. step1. rewrite getU64_ok by assumption. step1.
  rewrite getU64_ok by assumption. step1. now destruct l.
Qed.
Lemma sym_rt s : ok_loc (syloc s) -> symbolFromJson (symbolToJson s) = Ok s.
Proof.
  intros H. unfold symbolFromJson, symbolToJson. step1. rewrite loc_rt by assumption. step1. now destruct s.
Qed.
Lemma bounds_rt r : ok_range r -> boundsFromJson (boundsToJson r) = Ok (asc r).
Proof.
  unfold ok_range, in_i32. intros H. unfold boundsFromJson, boundsToJson. cbn [elt nth bind].
  rewrite getI32_ok by (unfold in_i32, lower; lia). cbn [bind].
  rewrite getI32_ok by (unfold in_i32, upper; lia). reflexivity.
Qed.

Section Serial.
Variable cval : Type.
Variable cbad : cval.
Variable ctext : cval -> str.
Variable cparse : str -> option cval.
Notation nlg := (nlg cval).
Notation fromJ := (nodeFromJson cbad cparse).
Notation toJ := (nodeToJson ctext).
Notation norm := (norm_data cbad ctext cparse).

Lemma node_rt id d : in_u64 id -> ok_data d -> fromJ (toJ id d) = Ok (id, norm d).
Proof.
  intros Hi Hd. destruct d; cbn [ok_data] in Hd; unfold nodeFromJson, nodeToJson;
    step1; rewrite (getU64_ok id) by assumption; step1; rewrite kind_codec; cbv iota; step1;
    try (rewrite loc_rt by apply Hd); step1; try (rewrite bounds_rt by apply Hd); step1; try reflexivity.
  - now rewrite direction_codec.
  - rewrite getU64_ok by apply Hd. step1. cbn [norm_data]. unfold restored, constFromJson.
    now destruct (ctext v).
Qed.

(** ** File table and black boxes *)
Lemma files_rt fs : forall g : nlg, NoDup (lfiles g ++ fs) ->
  each fstep (map JStr fs) g =
  (NL (lfiles g ++ fs) (lbox g) (lg g) (lnode g) (lid g) (ledge g) (lsyms g), Ok tt).
Proof.
  induction fs as [|f fs IH]; intros g H; cbn [map each].
  - rewrite app_nil_r. now destruct g.
  - unfold fstep at 1. cbn [getStr]. unfold seq_intern.
    destruct (pos (fun x : str => x) (lfiles g) f) as [i|] eqn:P.
    + exfalso. apply pos_some in P. destruct P as [r [Hr <-]]. apply nth_error_In in Hr.
      apply NoDup_remove_2 in H. apply H. apply in_or_app. now left.
    + cbn [fst]. rewrite IH; cbn [lfiles lbox lg lnode lid ledge lsyms]; rewrite <- app_assoc; [reflexivity|assumption].
Qed.
Lemma boxes_rt bs : forall g : nlg,
  each bstep (map JStr bs) g =
  (NL (lfiles g) (lbox g ++ bs) (lg g) (lnode g) (lid g) (ledge g) (lsyms g), Ok tt).
Proof.
  induction bs as [|f fs IH]; intros g; cbn [map each].
  - rewrite app_nil_r. now destruct g.
  - unfold bstep at 1. cbn [getStr]. rewrite IH. cbn [lfiles lbox lg lnode lid ledge lsyms].
    now rewrite <- app_assoc.
Qed.

(** ** Node loop *)
(** A graph holding [k] nodes 0..k-1 and no edge. *)
Definition bare (g : nlg) (k : nat) : Prop := Rep (lg g) (MG (seq 0 k) [] k 0).

Lemma bare_add (g : nlg) k d id : bare g k ->
  bare (fst (addNodeData g d id)) (S k) /\ snd (addNodeData g d id) = k.
Proof.
  intros R. unfold addNodeData.
  pose proof (step_ok 16 _ _ OAddNode R) as St. cbn [step mg_step mnn mv mE mne] in St.
  destruct (addNode (lg g)) as [gr n]. cbn [fst snd]. destruct St as [R1 En]. injection En as ->.
  split; [|reflexivity]. unfold bare. cbn [lg]. rewrite seq_S. exact R1.
Qed.

Lemma nodes_rt (idf : nat -> Z) (df : nat -> ndata cval) : forall ns (g : nlg) m next k,
  bare g k -> (forall n, In n ns -> in_u64 (idf n) /\ ok_data (df n)) ->
  exists g' m' next',
    each (nstep cbad cparse) (map (fun n => toJ (idf n) (df n)) ns) (g, m, next) = ((g', m', next'), Ok tt) /\
    bare g' (k + length ns) /\
    lfiles g' = lfiles g /\ lbox g' = lbox g /\ lsyms g' = lsyms g /\
    (forall i, i < k -> lnode g' i = lnode g i) /\
    (forall i n, nth_error ns i = Some n -> lnode g' (k + i) = norm (df n)) /\
    (NoDup (map idf ns) ->
       (forall i n, nth_error ns i = Some n -> id_find m' (idf n) = Some (k + i)) /\
       (forall z, ~ In z (map idf ns) -> id_find m' z = id_find m z)) /\
    next' = (next + Z.of_nat (length ns))%Z /\
    (forall i, i < k -> lid g' i = lid g i) /\
    (forall i, i < length ns -> lid g' (k + i) = (next + Z.of_nat i)%Z).
Proof.
  induction ns as [|n ns IH]; intros g m next k R H.
  - exists g, m, next. cbn [map each length]. rewrite Nat.add_0_r, Z.add_0_r.
    split; [reflexivity|]. split; [assumption|]. do 3 (split; [reflexivity|]).
    split; [reflexivity|]. split; [intros [|i] ? E; discriminate E|].
    split; [intros _; split; [intros [|i] ? E; discriminate E|reflexivity]|].
    split; [reflexivity|]. split; [reflexivity|]. intros i Hi; lia.
  - cbn [map each]. unfold nstep at 1.
    destruct (H n (or_introl eq_refl)) as [Hi Hd]. rewrite (node_rt _ _ Hi Hd).
    destruct (bare_add g k (norm (df n)) next R) as [R1 S1].
    assert (N1 : lnode (fst (addNodeData g (norm (df n)) next)) = upd (lnode g) k (norm (df n)) /\
                 lid (fst (addNodeData g (norm (df n)) next)) = upd (lid g) k next /\
                 lfiles (fst (addNodeData g (norm (df n)) next)) = lfiles g /\
                 lbox (fst (addNodeData g (norm (df n)) next)) = lbox g /\
                 lsyms (fst (addNodeData g (norm (df n)) next)) = lsyms g).
    { rewrite <- S1. unfold addNodeData. destruct (addNode (lg g)) as [gr x]. cbn. auto. }
    destruct (addNodeData g (norm (df n)) next) as [g1 x]. cbn [fst snd] in *. subst x.
    destruct N1 as (N1 & N2 & N3 & N4 & N5).
    destruct (IH g1 ((idf n, k) :: m) (next + 1)%Z (S k) R1 (fun y Hy => H y (or_intror Hy)))
      as (g' & m' & next' & E & A1 & A2 & A3 & A4 & A5 & A6 & A7 & A8 & A9 & A10).
    exists g', m', next'. split; [exact E|].
    split. { cbn [length]. now rewrite Nat.add_succ_r. }
    split; [congruence|]. split; [congruence|]. split; [congruence|].
    split. { intros i Hk. rewrite A5 by lia. rewrite N1, upd_other by lia. reflexivity. }
    split.
    { intros [|i] y Hy; cbn [nth_error] in Hy.
      - injection Hy as <-. rewrite Nat.add_0_r, A5 by lia. now rewrite N1, upd_same.
      - specialize (A6 i y Hy). now rewrite Nat.add_succ_r. }
    split.
    { cbn [map]. intros ND. apply NoDup_cons_iff in ND. destruct ND as [ND1 ND2].
      destruct (A7 ND2) as [B1 B2]. split.
      - intros [|i] y Hy; cbn [nth_error] in Hy.
        + injection Hy as <-. rewrite B2 by assumption. cbn [id_find]. rewrite Z.eqb_refl. f_equal. lia.
        + rewrite (B1 i y Hy). f_equal. lia.
      - intros z Hz. rewrite B2 by (intros C; apply Hz; now right). cbn [id_find].
        destruct (Z.eqb_spec (idf n) z) as [E0|]; [|reflexivity]. exfalso. apply Hz. now left. }
    split; [cbn [length]; lia|].
    split. { intros i Hk. rewrite A9 by lia. rewrite N2, upd_other by lia. reflexivity. }
    intros [|i] Hl; cbn [length] in Hl.
    + rewrite Nat.add_0_r, A9 by lia. rewrite N2, upd_same. lia.
    + replace (k + S i) with (S k + i) by lia. rewrite A10 by lia. lia.
Qed.

End Serial.
