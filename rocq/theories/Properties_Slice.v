(** Properties C35-C40, C55, C66 and C67: bit slices, their alignment and the bit-aligned
    assignment. *)
From Coq Require Import Sorted.
From Verif Require Import Base M_Interval S_Interval P_Interval M_Slice S_Slice
  P_Slice P_Slice2 P_Slice3.

(** The cut hints that the pipeline passes on: a registry after any recording history. *)
Definition hints_of (width : nat -> N) (ops : list (nat * list N)) : hints :=
  fun s => option_map (map N.to_nat) (cutsFor (cut_run width reg_empty ops) s).

(** Hints of a registry are sorted, which is what the theorems below ask for. *)
Theorem c39_registry_hints_sorted : forall width ops, sorted_hints (hints_of width ops).
Proof.
  intros width ops s l H. unfold hints_of in H.
  pose proof (cut_run_strict width s ops reg_empty (SSorted_nil _)) as S. unfold regl in S.
  unfold cutsFor in H. destruct (cut_run width reg_empty ops s) as [c|]; [|discriminate].
  cbn in H. inversion H; subst. clear H.
  induction S as [|x c S IH F]; cbn [map]; constructor; auto.
  rewrite Forall_forall in *. intros y I. apply in_map_iff in I. destruct I as (z & <- & I).
  specialize (F z I). lia.
Qed.
Print Assumptions c39_registry_hints_sorted.

(** No select with a variable index, and none of a non-variable, where bits pass through. *)
Definition static_expr {V} (e : expr V) : Prop := typed (fun _ _ => False) e.
(** Such selects are allowed if no hint falls inside their static prefix. *)
Definition unhinted (h : hints) (p : path) (w : nat) : Prop :=
  forall s l c, proot p = Some s -> h s = Some l -> In c l -> ~ (plo p < c <= phi p).

Definition x4 : path := Path (Some 0) 0 3.       (* variable 0, bits 3..0 *)
Definition y2 : path := Path (Some 1) 0 1.       (* variable 1, bits 1..0 *)
Definition z4 : path := Path (Some 2) 0 3.
Definition b0 : expr bool := ELsp (Path (Some 3) 0 0) 1.

(** * C35: the list built for an expression consists of slices of non-zero width,
    contiguous from 0 to the width of the expression.  Full statement: for every nesting
    and whatever the hints.  False for a select with a variable index: with a hint inside
    the prefix, the pieces cover the whole prefix instead of the selected width. *)
Definition pick (x : list bool) (i : list (list bool)) : list bool :=
  match i with
  | [a] :: _ => [nth (if a then 1 else 0) x false]
  | _ => [false]
  end.
Definition dynsel : expr bool := EDyn x4 1 [b0] pick.      (* x[i] with a one-bit index *)
Definition hint1 : hints := fun s => match s with 0 => Some [1] | _ => None end.

Theorem c35_tiling_refuted :
  ~ (forall (h : hints) (e : expr bool), sorted_hints h -> typed (fun p w => proot p <> None /\ 0 < w) e ->
       tiled 0 (build_list false h true e) (ew e)).
Proof.
  intros H. assert (T : tiled 0 (build_list false hint1 true dynsel) (ew dynsel)).
  { apply H; [|split; [cbn; lia|split; [discriminate|lia]]].
    intros [|s] l E; inversion E. repeat constructor. }
  cbn in T. lia.
Qed.
Print Assumptions c35_tiling_refuted.

Theorem c35_tiling_partial : forall V (vz : V) (h : hints) (e : expr V), sorted_hints h ->
  typed (unhinted h) e -> tiled 0 (build_list vz h true e) (ew e).
Proof.
  intros V vz h e Sh T. unfold build_list.
  destruct (build_spec V vz (unhinted h) h Sh) with (e := e) (out := @nil (slice V)) (W := 0)
    as (new & E & Ti & _); auto.
  - intros p w U. destruct (splits_spec h p Sh) as [_ S].
    destruct (splits h p) as [|c cs]; [reflexivity|]. exfalso.
    destruct (proj1 (S c) (or_introl eq_refl)) as (L & s & l & R & Hs & I).
    apply (U s l c R Hs I). lia.
  - reflexivity.
  - cbn in E. rewrite E. exact Ti.
Qed.
Print Assumptions c35_tiling_partial.

(** With resolution disabled the list is one opaque slice. *)
Theorem c35_tiling_disabled : forall V (vz : V) h (e : expr V),
  tiled 0 (build_list vz h false e) (ew e).
Proof.
  intros V vz h e. unfold build_list, pushOpaque. destruct (Nat.eqb_spec (ew e) 0) as [E|E]; cbn; lia.
Qed.
Print Assumptions c35_tiling_disabled.

(** {x, {2{y}}} of width 8 with a hint in the middle of x. *)
Definition nest : expr bool :=
  EConcat 8 [ELsp x4 4; ERepl 4 (Some 2%Z) (ELsp y2 2)].
Definition hint2 : hints := fun s => match s with 0 => Some [2] | _ => None end.
Lemma hint2_sorted : sorted_hints hint2.
Proof. intros [|s] l E; inversion E. repeat constructor. Qed.
Lemma nest_static : static_expr nest.
Proof. unfold static_expr. cbn. intuition (lia || discriminate). Qed.
Example c35_nonvacuous :
  map (fun s => (clo s, chi s)) (build_list false hint2 true nest) = [(0,2);(2,4);(4,6);(6,8)] /\
  typed (unhinted hint2) nest.
Proof. split; [reflexivity|]. cbn. intuition (lia || discriminate). Qed.

(** * C36: bit k of the expression is attributed to exactly the origins of bit k in
    [bits]: operand bits for structural operators, the condition for a conditional, the
    whole sub-expression for everything else. *)
Theorem c36_attribution_exact : forall V (vz : V) h (e : expr V) k, sorted_hints h -> static_expr e ->
  k < ew e -> attr vz (build_list vz h true e) k = nth k (bits vz e) [].
Proof.
  intros V vz h e k Sh T K. unfold build_list.
  destruct (build_list_spec V vz h e Sh T) as (Ti & P & _).
  rewrite (attr_provs V vz _ 0 (ew e)) by (auto; lia). now rewrite Nat.sub_0_r, P.
Qed.
Print Assumptions c36_attribution_exact.

(** Soundness against values, full statement: two environments that agree on the variable
    bits named for bit k give bit k the same value.  False for sign extension: the added
    bits are attributed to padding, but are the sign bit. *)
Definition sext : expr bool := EConv 3 true true true None (ELsp y2 2).
Theorem c36_values_refuted :
  ~ (forall (h : hints) (e : expr bool) v1 v2 k, sorted_hints h -> static_expr e ->
       sized false e -> folds_ok false e -> k < ew e ->
       agree v1 v2 (flat_map atom_reads (attr false (build_list false h true e) k)) ->
       nth k (eval false v1 e) false = nth k (eval false v2 e) false).
Proof.
  intros H.
  specialize (H no_hints sext (fun _ _ => false) (fun _ _ => true) 2). vm_compute in H.
  apply (Bool.diff_false_true). apply H; try lia.
  - intros s l E. discriminate.
  - right. repeat split; try lia. discriminate.
  - repeat split; intros; reflexivity.
  - split; [intros c v E; discriminate|exact I].
Qed.
Print Assumptions c36_values_refuted.

(** It holds whenever nothing is sign-extended on the way. *)
Theorem c36_values_partial : forall V (vz : V) h (e : expr V) v1 v2 k, sorted_hints h ->
  static_expr e -> sized vz e -> folds_ok vz e -> unsigned_ext e -> k < ew e ->
  agree v1 v2 (flat_map atom_reads (attr vz (build_list vz h true e) k)) ->
  nth k (eval vz v1 e) vz = nth k (eval vz v2 e) vz.
Proof.
  intros V vz h e v1 v2 k Sh T Sz F U K A. rewrite c36_attribution_exact in A by auto.
  destruct (bits_sound V vz v1 v2 e T Sz F U) as (_ & _ & Q). apply Q; [|exact A].
  rewrite (bits_length V vz e T). exact K.
Qed.
Print Assumptions c36_values_partial.
(** c ? {y, y} : z has bit 2 attributed to y[0], z[2] and the condition. *)
Definition muxe : expr bool :=
  ECond 4 true b0 (EConcat 4 [ELsp y2 2; ELsp y2 2]) (ELsp z4 4)
    (fun c a b => if nth 0 c false then a else b).
Example c36_nonvacuous :
  attr false (build_list false hint2 true muxe) 2 = [ABit (Some 1) 0; ABit (Some 2) 2; AOpq b0] /\
  static_expr muxe /\ sized false muxe /\ unsigned_ext muxe /\ folds_ok false muxe.
Proof.
  split; [reflexivity|]. split; [|split; [|split]].
  - unfold static_expr. cbn. intuition (lia || discriminate).
  - cbn. intuition reflexivity.
  - cbn. auto.
  - cbn. auto.
Qed.

(** * C37: aligning two lists of one width gives the coarsest partition that refines
    both. *)
Theorem c37_alignment_refines : forall V (l r : list (slice V)) w, tiled 0 l w -> tiled 0 r w ->
  seg_tiled 0 (map (fun g => (slo g, shi g)) (alignSegments l r)) w /\
  (forall g, In g (alignSegments l r) ->
     exists s t, In s l /\ In t r /\ inside (slo g, shi g) s /\ inside (slo g, shi g) t /\
       lsrcs g = srcs s /\ rsrcs g = srcs t) /\
  (forall gs, seg_tiled 0 gs w ->
     (forall x, In x gs -> (exists s, In s l /\ inside x s) /\ exists t, In t r /\ inside x t) ->
     forall g, In g (alignSegments l r) -> exists x, In x gs /\ snd x = shi g).
Proof.
  intros V l r w Tl Tr. split; [now apply align_tiled|]. split.
  - intros g I. now apply (align_inside V l r w).
  - intros gs Tg H g I. now apply (align_coarsest V l r w gs g).
Qed.
Print Assumptions c37_alignment_refines.
(** The slice that a segment lies in is unique. *)
Theorem c37_slice_unique : forall V (l : list (slice V)) w s t g, tiled 0 l w ->
  fst g < snd g -> In s l -> In t l -> inside g s -> inside g t -> s = t.
Proof.
  intros V l w s t g T L I J A B. unfold inside in *.
  apply (tiled_unique V l 0 w s t (fst g)); auto; lia.
Qed.
Print Assumptions c37_slice_unique.
Example c37_nonvacuous :
  map (fun g => (slo g, shi g))
    (alignSegments (build_list false no_hints true nest)
       (build_list false no_hints true (EConcat 8 [ELsp (Path (Some 5) 0 4) 5; ELsp (Path (Some 6) 0 2) 3])))
  = [(0,2);(2,3);(3,4);(4,8)].
Proof. reflexivity. Qed.

(** * C38: the assignment lhs = rhs.  Full statement: lhs variable bit (s,i) is recorded as
    depending on rhs variable bit (t,j) iff some position carries both.  False: bits of
    one segment are not told apart. *)
Definition dep_bit (ns : list (segnode bool)) (s i t j : nat) : Prop :=
  exists n, In n ns /\ noted (ln n) s i /\ noted (rn n) t j.
Theorem c38_flow_refuted :
  ~ (forall (lhs rhs : expr bool), static_expr lhs -> static_expr rhs -> ew lhs = ew rhs ->
       exists ns, assign false no_hints false false lhs rhs = ANodes ns /\
         forall s i t j, dep_bit ns s i t j <->
           exists k, k < ew lhs /\ In (ABit (Some s) i) (nth k (bits false lhs) []) /\
                     In (ABit (Some t) j) (nth k (bits false rhs) [])).
Proof.
  intros H. destruct (H (ELsp y2 2) (ELsp (Path (Some 7) 0 1) 2)) as (ns & E & F).
  - cbn. intuition (lia || discriminate).
  - cbn. intuition (lia || discriminate).
  - reflexivity.
  - vm_compute in E. inversion E; subst ns; clear E.
    assert (D : dep_bit [SegNode [(1, 0, 1)] [(7, 0, 1)] [] []] 1 0 7 1).
    { exists (SegNode [(1, 0, 1)] [(7, 0, 1)] [] []). split; [now left|]. split.
      - exists 0, 1. split; [now left|lia].
      - exists 0, 1. split; [now left|lia]. }
    apply F in D. destruct D as (k & K & A & B). cbn in K. destruct k as [|[|k]]; [| |lia].
    + cbn in B. intuition discriminate.
    + cbn in A. intuition discriminate.
Qed.
Print Assumptions c38_flow_refuted.

(** What holds: the assignment never crashes, and the dependencies are exactly those
    between positions with no boundary of either side in between. *)
Theorem c38_flow_partial : forall V (vz : V) h (lhs rhs : expr V), sorted_hints h ->
  static_expr lhs -> static_expr rhs -> ew lhs = ew rhs ->
  exists ns, assign vz h false false lhs rhs = ANodes ns /\
    (forall s i t j, (exists n, In n ns /\ noted (ln n) s i /\ noted (rn n) t j) <->
       exists k1 k2, k1 < ew lhs /\ k2 < ew lhs /\
         together (build_list vz h true lhs) (build_list vz h true rhs) k1 k2 /\
         In (ABit (Some s) i) (nth k1 (bits vz lhs) []) /\
         In (ABit (Some t) j) (nth k2 (bits vz rhs) [])) /\
    (forall s i e, (exists n, In n ns /\ noted (ln n) s i /\ In e (ropq n)) <->
       exists k1 k2, k1 < ew lhs /\ k2 < ew lhs /\
         together (build_list vz h true lhs) (build_list vz h true rhs) k1 k2 /\
         In (ABit (Some s) i) (nth k1 (bits vz lhs) []) /\
         In (AOpq e) (nth k2 (bits vz rhs) [])).
Proof. intros V vz h lhs rhs. unfold build_list. apply flow_spec. Qed.
Print Assumptions c38_flow_partial.

(** No dependency is missed. *)
Theorem c38_flow_complete : forall V (vz : V) h (lhs rhs : expr V) k s i, sorted_hints h ->
  static_expr lhs -> static_expr rhs -> ew lhs = ew rhs -> k < ew lhs ->
  In (ABit (Some s) i) (nth k (bits vz lhs) []) ->
  exists ns, assign vz h false false lhs rhs = ANodes ns /\
    (forall t j, In (ABit (Some t) j) (nth k (bits vz rhs) []) ->
       exists n, In n ns /\ noted (ln n) s i /\ noted (rn n) t j) /\
    (forall e, In (AOpq e) (nth k (bits vz rhs) []) ->
       exists n, In n ns /\ noted (ln n) s i /\ In e (ropq n)).
Proof.
  intros V vz h lhs rhs k s i Sh Tl Tr E K A.
  destruct (flow_spec V vz h lhs rhs Sh Tl Tr E) as (ns & En & F & G).
  exists ns. split; [exact En|]. split.
  - intros t j B. apply F. exists k, k. split; [exact K|]. split; [exact K|].
    split; [apply together_refl|auto].
  - intros e B. apply G. exists k, k. split; [exact K|]. split; [exact K|].
    split; [apply together_refl|auto].
Qed.
Print Assumptions c38_flow_complete.

(** No cross-bit dependency is introduced where every bit position is a boundary. *)
Theorem c38_flow_exact_when_cut : forall V (vz : V) h (lhs rhs : expr V), sorted_hints h ->
  static_expr lhs -> static_expr rhs -> ew lhs = ew rhs ->
  (forall k, 0 < k < ew lhs -> boundary (build_list vz h true lhs) k \/ boundary (build_list vz h true rhs) k) ->
  exists ns, assign vz h false false lhs rhs = ANodes ns /\
    forall s i t j, (exists n, In n ns /\ noted (ln n) s i /\ noted (rn n) t j) <->
      exists k, k < ew lhs /\ In (ABit (Some s) i) (nth k (bits vz lhs) []) /\
                In (ABit (Some t) j) (nth k (bits vz rhs) []).
Proof.
  intros V vz h lhs rhs Sh Tl Tr E B.
  destruct (flow_spec V vz h lhs rhs Sh Tl Tr E) as (ns & En & F & _).
  exists ns. split; [exact En|]. intros s i t j. rewrite F. split.
  - intros (k1 & k2 & K1 & K2 & T & A & C). assert (k1 = k2) as <-; [|exists k1; auto].
    destruct (Nat.lt_trichotomy k1 k2) as [L|[L|L]]; [|exact L|].
    + specialize (T k2). unfold build_list in B. specialize (B k2). destruct T; [apply B; lia|]. lia.
    + specialize (T k1). unfold build_list in B. specialize (B k1). destruct T; [apply B; lia|]. lia.
  - intros (k & K & A & C). exists k, k. split; [exact K|]. split; [exact K|].
    split; [apply together_refl|auto].
Qed.
Print Assumptions c38_flow_exact_when_cut.
(** {b, a} = x with one-bit a and b: a reads x[0] only and b reads x[1] only. *)
Definition swap_l : expr bool := EConcat 2 [ELsp (Path (Some 8) 0 0) 1; ELsp (Path (Some 9) 0 0) 1].
Example c38_nonvacuous :
  assign false no_hints false false swap_l (ELsp y2 2) =
    ANodes [SegNode [(9,0,0)] [(1,0,0)] [] []; SegNode [(8,0,0)] [(1,1,1)] [] []] /\
  static_expr swap_l.
Proof. split; [reflexivity|]. unfold static_expr. cbn. intuition (lia || discriminate). Qed.

(** An output argument is written and not read; under the no-write flag nothing is written;
    the left-hand notes do not depend on the former. *)
Theorem c38_output_argument : forall V (vz : V) h p (lhs rhs : expr V) ns,
  assign vz h p true lhs rhs = ANodes ns ->
  forall n, In n ns -> rn n = [] /\ ropq n = [] /\ rconst n = [].
Proof.
  intros V vz h p lhs rhs ns H. unfold assign in H. destruct (negb _); [discriminate|].
  revert ns H. generalize (alignSegments (build vz h lhs []) (build vz h rhs [])).
  induction l as [|g gs IH]; intros ns H n I; cbn [seg_nodes] in H.
  - injection H as <-. destruct I.
  - unfold seg_node in H. destruct (if p then Some [] else lhs_notes g (lsrcs g)) as [ln0|]; [|discriminate].
    destruct (seg_nodes p true gs) as [ms|]; [|discriminate]. injection H as <-. destruct I as [<-|I].
    + cbn. auto.
    + exact (IH ms eq_refl n I).
Qed.
Print Assumptions c38_output_argument.
Theorem c38_no_write : forall V (vz : V) h l (lhs rhs : expr V) ns,
  assign vz h true l lhs rhs = ANodes ns -> forall n, In n ns -> ln n = [].
Proof.
  intros V vz h l lhs rhs ns H. unfold assign in H. destruct (negb _); [discriminate|].
  revert ns H. generalize (alignSegments (build vz h lhs []) (build vz h rhs [])).
  assert (K : forall g ss acc m, rhs_notes g ss acc = Some m -> ln (V := V) m = ln acc).
  { induction ss as [|x ss IH]; intros acc m E; cbn [rhs_notes] in E; [congruence|].
    destruct x; try (apply IH in E; exact E); try discriminate.
    destruct (lsp_note p lo g) as [o|]; [|discriminate]. apply IH in E. exact E. }
  induction l0 as [|g gs IH]; intros ns H n I; cbn [seg_nodes] in H.
  - injection H as <-. destruct I.
  - unfold seg_node in H. destruct (if l then _ else _) as [m|] eqn:E; [|discriminate].
    destruct (seg_nodes true l gs) as [ms|]; [|discriminate]. injection H as <-. destruct I as [<-|I].
    + destruct l; [injection E as <-; reflexivity|]. apply K in E. exact E.
    + exact (IH ms eq_refl n I).
Qed.
Print Assumptions c38_no_write.
Example c38_output_argument_nonvacuous :
  assign false no_hints false true swap_l (ELsp y2 2) =
    ANodes [SegNode [(9,0,0)] [] [] []; SegNode [(8,0,0)] [] [] []] /\
  assign false no_hints true false swap_l (ELsp y2 2) =
    ANodes [SegNode [] [(1,0,0)] [] []; SegNode [] [(1,1,1)] [] []].
Proof. split; reflexivity. Qed.

(** * C39: hints change neither the tiling nor the attribution of any bit; the boundaries
    with hints are those without plus the hinted cuts. *)
Theorem c39_hints_refine : forall V (vz : V) h (e : expr V), sorted_hints h -> static_expr e ->
  tiled 0 (build_list vz h true e) (ew e) /\ tiled 0 (build_list vz no_hints true e) (ew e) /\
  (forall k, k < ew e -> attr vz (build_list vz h true e) k = attr vz (build_list vz no_hints true e) k) /\
  (forall k, boundary (build_list vz h true e) k <->
             boundary (build_list vz no_hints true e) k \/ hcut h e k).
Proof.
  intros V vz h e Sh T. split; [now apply build_list_spec|].
  split; [apply build_list_spec; [apply no_hints_sorted|exact T]|]. split.
  - intros k K. rewrite !c36_attribution_exact; auto. apply no_hints_sorted.
  - intros k. now apply hint_boundaries.
Qed.
Print Assumptions c39_hints_refine.
(** The hint at bit 2 of x falls at position 6 of {x, {2{y}}}. *)
Example c39_nonvacuous : hcut hint2 nest 6 /\
  ~ boundary (build_list false no_hints true nest) 6 /\ boundary (build_list false hint2 true nest) 6.
Proof.
  split; [|split].
  - unfold nest. change 6 with (list_sum (map (@ew bool) [ERepl 4 (Some 2%Z) (ELsp y2 2)]) + (2 - plo x4)).
    apply (HCat bool hint2 8 [] (ELsp x4 4)). eapply HLsp; [reflexivity|reflexivity|now left|cbn; lia].
  - intros (s & I & E). apply (in_map chi) in I. rewrite E in I. vm_compute in I.
    repeat destruct I as [I|I]; discriminate || contradiction.
  - exists (Slice 4 6 [SLsp x4 4 8]). split; [right; right; left; reflexivity|reflexivity].
Qed.

(** * C40: widening leaves the low bits alone and attributes the added ones to padding
    when both types are signed and to a constant 0 otherwise; narrowing is opaque. *)
Theorem c40_widening : forall V (vz : V) h w prop si so (x : expr V) k, sorted_hints h ->
  static_expr x -> ew x <= w -> k < w ->
  attr vz (build_list vz h true (EConv w prop si so None x)) k =
    (if k <? ew x then attr vz (build_list vz h true x) k
     else if si && so then [APad] else [AConst vz]).
Proof.
  intros V vz h w prop si so x k Sh T L K.
  rewrite c36_attribution_exact; [|exact Sh|unfold static_expr in *; cbn; auto|exact K].
  cbn [bits]. replace (w <? ew x) with false by lia.
  pose proof (bits_length V vz x T) as Lb. destruct (Nat.ltb_spec k (ew x)) as [Q|Q].
  - rewrite app_nth1 by lia. now rewrite c36_attribution_exact.
  - rewrite app_nth2 by lia.
    rewrite (nth_indep _ [] [if si && so then APad else AConst vz]) by (rewrite repeat_length; lia).
    rewrite nth_repeat. now destruct (si && so).
Qed.
Print Assumptions c40_widening.
Theorem c40_narrowing : forall V (vz : V) h w prop si so (x : expr V) k, sorted_hints h ->
  w < ew x -> k < w ->
  attr vz (build_list vz h true (EConv w prop si so None x)) k = [AOpq (EConv w prop si so None x)].
Proof.
  intros V vz h w prop si so x k Sh L K.
  rewrite c36_attribution_exact; [|exact Sh|unfold static_expr; cbn; auto|exact K].
  cbn [bits]. replace (w <? ew x) with true by lia.
  rewrite (nth_indep _ [] [AOpq (EConv w prop si so None x)]) by (rewrite repeat_length; lia).
  now rewrite nth_repeat.
Qed.
Print Assumptions c40_narrowing.
(** A folded conversion is the constant, bit by bit. *)
Theorem c40_folded : forall V (vz : V) h w prop si so v (x : expr V) k, sorted_hints h ->
  static_expr (EConv w prop si so (Some v) x) -> length v = w -> k < w ->
  attr vz (build_list vz h true (EConv w prop si so (Some v) x)) k = [AConst (nth k v vz)].
Proof.
  intros V vz h w prop si so v x k Sh T L K. rewrite c36_attribution_exact; auto.
  cbn [bits]. rewrite L, Nat.eqb_refl. apply (nth_singleton_map (fun b : V => AConst b)). lia.
Qed.
Print Assumptions c40_folded.

(** The constant 0 claimed for the added bits is their value when the conversion does not
    sign-extend ([unsigned_ext])... *)
Theorem c40_zero_is_zero_partial : forall V (vz : V) w (prop si so : bool) (x : expr V) v k,
  sized vz x -> (if prop then so else si) = false -> ew x <= k < w ->
  nth k (eval vz v (EConv w prop si so None x)) vz = vz.
Proof.
  intros V vz w prop si so x v k Sz U K. cbn [eval]. unfold resize. rewrite U.
  assert (Le : length (eval vz v x) = ew x) by (destruct x; apply Sz).
  rewrite firstn_all2 by lia. rewrite app_nth2 by lia. apply nth_repeat.
Qed.
Print Assumptions c40_zero_is_zero_partial.
(** ...but not for an explicit cast of a signed operand to an unsigned type, which
    sign-extends and is still attributed to a constant 0. *)
Definition ucast : expr bool := EConv 3 false true false None (ELsp y2 2).
Theorem c40_zero_is_zero_refuted :
  ~ (forall (h : hints) (e : expr bool) v k b, sorted_hints h -> static_expr e -> sized false e ->
       k < ew e -> attr false (build_list false h true e) k = [AConst b] ->
       nth k (eval false v e) false = b).
Proof.
  intros H. specialize (H no_hints ucast (fun _ _ => true) 2 false). vm_compute in H.
  apply (Bool.diff_true_false). apply H; try lia.
  - intros s l E. discriminate.
  - right. repeat split; try lia. discriminate.
  - repeat split; intros; reflexivity.
  - reflexivity.
Qed.
Print Assumptions c40_zero_is_zero_refuted.
Example c40_nonvacuous :
  map (attr false (build_list false no_hints true sext)) [0;1;2] =
    [[ABit (Some 1) 0]; [ABit (Some 1) 1]; [APad]] /\
  attr false (build_list false no_hints true (EConv 3 true false false None (ELsp y2 2))) 2 = [AConst false].
Proof. split; reflexivity. Qed.

(** * C55: the value given to the constant node of a segment is the matching slice of the
    constant, and the segments of a constant give it back. *)
Theorem c55_constant_slice : forall V (v : list V) lo (g : segment V),
  lo <= slo g -> slo g < shi g -> shi g <= lo + length v ->
  const_slice v lo g = firstn (shi g - slo g) (skipn (slo g - lo) v).
Proof. exact const_slice_ok. Qed.
Print Assumptions c55_constant_slice.
Theorem c55_constant_rebuilt : forall V (v : list V) lo (gs : list (segment V)),
  seg_tiled lo (map (fun g => (slo g, shi g)) gs) (lo + length v) ->
  concat (map (const_slice v lo) gs) = v.
Proof. intros V v lo gs T. rewrite (const_concat V v lo gs lo) by auto. now rewrite Nat.sub_diag. Qed.
Print Assumptions c55_constant_rebuilt.
(** In an assignment: each constant of the node of segment g has the width of g, and its
    bits are constants that the right-hand side has at those positions. *)
Theorem c55_assignment_constants : forall V (vz : V) h (lhs rhs : expr V), sorted_hints h ->
  static_expr lhs -> static_expr rhs -> ew lhs = ew rhs ->
  exists ns, assign vz h false false lhs rhs = ANodes ns /\
    Forall2 (fun g n => forall c, In c (rconst n) -> length c = shi g - slo g /\
        forall k, slo g <= k < shi g ->
          In (AConst (nth (k - slo g) c vz)) (nth k (bits vz rhs) []))
      (alignSegments (build_list vz h true lhs) (build_list vz h true rhs)) ns.
Proof.
  intros V vz h lhs rhs Sh Tl Tr E.
  destruct (assign_spec V vz h lhs rhs Sh Tl Tr E) as (ns & En & F).
  exists ns. split; [exact En|]. clear En. unfold build_list.
  induction F as [|g n gs ns (_ & _ & _ & Q) F IH]; constructor; auto.
Qed.
Print Assumptions c55_assignment_constants.
(** {b, a} = 2'b10. *)
Example c55_nonvacuous :
  assign false no_hints false false swap_l (EOther 2 (Some [false; true]) [] (fun _ => [false; true])) =
    ANodes [SegNode [(9,0,0)] [] [] [[false]]; SegNode [(8,0,0)] [] [] [[true]]].
Proof. reflexivity. Qed.

(** * C66: a select with a non-constant index is attributed to every bit it may read and
    to its index.  False: it is attributed to the first bits of its static prefix, and
    the index is dropped.  The guides (docs/user-guide.dox 511-520,
    docs/developer-guide.dox 605-613) say that a non-constant select is opaque and that
    no real dependency is missed. *)
Theorem c66_variable_select_refuted :
  ~ (forall (e : expr bool) v1 v2 k, typed (fun p w => proot p <> None /\ 0 < w) e ->
       sized false e -> folds_ok false e -> unsigned_ext e -> k < ew e ->
       agree v1 v2 (flat_map atom_reads (attr false (build_list false no_hints true e) k)) ->
       nth k (eval false v1 e) false = nth k (eval false v2 e) false).
Proof.
  intros H.
  (* x = 4'b0010 and the index is 0 or 1; x[0] is the only bit named *)
  specialize (H dynsel (fun s i => match s with 0 => i =? 1 | _ => false end)
                (fun s i => match s with 0 => i =? 1 | _ => true end) 0).
  vm_compute in H. apply Bool.diff_false_true. apply H.
  - split; [lia|]. split; [discriminate|lia].
  - split; [|exact I]. reflexivity.
  - exact I.
  - exact I.
  - lia.
  - intros s i [E|[]]. now inversion E.
Qed.
Print Assumptions c66_variable_select_refuted.
(** In an assignment y = x[i]: the only dependency recorded is x[0]. *)
Theorem c66_assignment_drops_index : 
  assign false no_hints false false (ELsp (Path (Some 9) 0 0) 1) dynsel =
    ANodes [SegNode [(9,0,0)] [(0,0,0)] [] []].
Proof. reflexivity. Qed.
Print Assumptions c66_assignment_drops_index.
(** In opaque position the expression is kept whole and nothing is lost. *)
Theorem c66_opaque_select_partial : forall V (vz : V) h p w ops f (g : list (list V) -> list V) v1 v2 k,
  (forall v, length (eval vz v (EOther w None [EDyn p w ops f] g)) = w) -> k < w ->
  agree v1 v2 (flat_map atom_reads (attr vz (build_list vz h true (EOther w None [EDyn p w ops f] g)) k)) ->
  nth k (eval vz v1 (EOther w None [EDyn p w ops f] g)) vz =
  nth k (eval vz v2 (EOther w None [EDyn p w ops f] g)) vz.
Proof.
  intros V vz h p w ops f g v1 v2 k L K A.
  rewrite (reads_eval V vz v1 v2 (EOther w None [EDyn p w ops f] g)); [reflexivity|].
  unfold build_list in A. cbn [build] in A. unfold folded, pushOpaque in A. cbn [ew] in A.
  replace (w =? 0) with false in A by lia. cbn [app attr clo chi width rev] in A.
  replace ((0 <=? k) && (k <? 0 + w)) with true in A by lia.
  cbn [srcs flat_map atoms_of app atom_reads] in A. rewrite app_nil_r in A. exact A.
Qed.
Print Assumptions c66_opaque_select_partial.

(** * C67: building the notes of an assignment never fails.  False when an operand selects
    from something that is not a variable: the root symbol is null and is dereferenced. *)
Definition concat_sel : expr bool :=      (* {a, b}[0] *)
  EDyn (Path None 0 0) 1 [swap_l] (fun _ x => [nth 0 (nth 0 x []) false]).
Theorem c67_assignment_total_refuted :
  ~ (forall h p l (lhs rhs : expr bool), ew lhs = ew rhs -> sized false lhs -> sized false rhs ->
       assign false h p l lhs rhs <> ACrash).
Proof.
  intros H. apply (H no_hints false false (ELsp (Path (Some 9) 0 0) 1) concat_sel); try reflexivity.
  - split; [reflexivity|exact I].
  - split; [reflexivity|exact I].
Qed.
Print Assumptions c67_assignment_total_refuted.
Theorem c67_assignment_total_partial : forall V (vz : V) h (lhs rhs : expr V), sorted_hints h ->
  static_expr lhs -> static_expr rhs -> ew lhs = ew rhs ->
  assign vz h false false lhs rhs <> ACrash.
Proof.
  intros V vz h lhs rhs Sh Tl Tr E H.
  destruct (flow_spec V vz h lhs rhs Sh Tl Tr E) as (ns & En & _). congruence.
Qed.
Print Assumptions c67_assignment_total_partial.
