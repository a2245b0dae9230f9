(** Proofs about combinational blocks: the nodes of a block determine what it computes. *)
From Coq Require Import Sorted.
From Verif Require Import Base M_Graph M_Range M_Netlist M_Annot M_Interval M_Heap M_Drivers M_Pending M_DFA M_Builder M_Slice M_Port M_Flow M_Proc
  S_Reach S_Netlist S_Interval S_Drivers S_Pending S_DFA S_Slice S_Port S_Flow S_Proc
  P_Interval P_Heap P_Drivers P_DriversX P_DFA P_DFA2 P_Slice P_Slice2 P_Flow2 P_Flow3 P_Flow4 P_Proc1.

(** The visits, one step. *)
Section Eqs.
Context {V : Type}.
Variable vz : V.
Variable rb : bool.
Variable h : hints.
Lemma proc_case c its : proc_stmt vz rb h (PCase c its) = option_map (SCase 0 (refs c)) (proc_items vz rb h its).
Proof. reflexivity. Qed.
Lemma proc_default p : proc_items vz rb h (PDefault p) = option_map CDefault (proc_stmt vz rb h p).
Proof. reflexivity. Qed.
Lemma proc_item xs p r : proc_items vz rb h (PItem xs p r) =
  match proc_stmt vz rb h p, proc_items vz rb h r with Some a, Some b => Some (CCons (flat_map refs xs) a b) | _, _ => None end.
Proof. reflexivity. Qed.
End Eqs.

Section Block.
Context {V : Type}.
Variable vz : V.
Variable istrue : list V -> bool.
Variable hits : list V -> list V -> bool.
Variable rb : bool.
Variable h : hints.
Variable ports : list fport.
Variable nm : nat -> str.
Hypothesis Sh : sorted_hints h.
Notation expr := (expr V).
Notation env := (nat -> nat -> V).
Notation reads := S_Slice.reads.
Notation seg_reads := P_Flow2.seg_reads.
Notation exec := (exec nm (fun _ => false) None).
Notation prun := (prun vz istrue hits).
Notation crun := (crun vz istrue hits).
Notation asg_ok := (asg_ok vz rb h ports).
Notation stmt_ok := (stmt_ok vz rb h ports).
Notation items_ok := (items_ok vz rb h ports).
Notation proc_stmt := (proc_stmt vz rb h).
Notation proc_items := (proc_items vz rb h).

(** * Assignments *)
Lemma src_same : forall r, source_refs r = seg_reads r.
Proof. intros []; reflexivity. Qed.

Definition asg_shape (l r : expr) : Prop :=
  (lvalue l /\ typed (fun _ _ => False) l /\ NoDup (lbits l) /\ in_driver ports l /\ (rb = false -> uncut h l)) /\
  readable vz rb ports r /\ ew l = ew r.
(** The blocking or the non-blocking writes of a statement. *)
Definition wrs (bl : bool) (q : stmt) : trace := if bl then all_writes q else nb_writes (fun _ => false) q.
Lemma static_all l : static (fun _ => false) l = l.
Proof. induction l as [|x l IH]; [reflexivity|]. cbn. f_equal. exact IH. Qed.
Lemma asg_ok_shape bl l r : asg_ok bl l r -> asg_shape l r.
Proof. intros (_ & A & B & _ & E & _). split; [exact A|]. split; assumption. Qed.
Lemma asg_segs bl l r : asg_shape l r -> exists q gs Wa, pasg_stmt vz rb h bl l r = Some q /\
  (forall s, areach (cur s) = true -> exec s q = exec s (SAligned 0 bl gs)) /\
  (forall g t b, In g gs -> In (t, b) (slhs g) -> In (0, t, b) (wrs bl q)) /\
  (forall l t b, In (l, t, b) (wrs bl q) -> exists g, In g gs /\ In (t, b) (slhs g)) /\
  (forall g t b, In g gs -> In (t, b) (flat_map seg_reads (srhs g)) -> In (t, b) (read_refs q)) /\
  W_ok h l Wa /\ G_ok vz l r gs /\ run_hyp l r Wa gs /\
  (forall g t i, In g gs -> rbit (slhs g) t i -> exists j, i = Z.of_nat j /\ In (t, j) (lbits l)) /\
  wrs bl q = flat_map (fun g => writes 0 (slhs g)) gs.
Proof.
  intros ((Lv & Tl & Nd & _ & Un) & (Po & _ & Rs) & Ew). unfold pasg_stmt.
  assert (Al : forall gs, (forall g t b, In g gs -> In (t, b) (slhs g) -> In (0, t, b) (wrs bl (SAligned 0 bl gs))) /\
    (forall l t b, In (l, t, b) (wrs bl (SAligned 0 bl gs)) -> exists g, In g gs /\ In (t, b) (slhs g)) /\
    (forall g t b, In g gs -> In (t, b) (flat_map seg_reads (srhs g)) -> In (t, b) (read_refs (SAligned 0 bl gs)))).
  { intros gs. unfold wrs. split; [|split].
    - intros g t b Ig I. destruct bl; cbn [all_writes nb_writes]; apply in_flat_map; exists g; (split; [exact Ig|]); cbn; unfold writes; apply in_map_iff; exists (t, b); auto.
    - intros l0 t b I. destruct bl; cbn [all_writes nb_writes] in I; apply in_flat_map in I; destruct I as (g & Ig & I); cbn in I; unfold writes in I; apply in_map_iff in I; destruct I as ([t' b'] & E & I);
        cbn in E; injection E as <- <- <-; eauto.
    - intros g t b Ig I. cbn [read_refs]. apply in_flat_map. exists g. split; [exact Ig|]. apply in_flat_map in I. destruct I as (x & Ix & I). apply in_flat_map. exists x.
      rewrite src_same. auto. }
  destruct rb eqn:Rb; cbn [negb].
  - destruct (Rs eq_refl) as (O1 & O2 & Tr & O3).
    destruct (build_list_spec V vz h l Sh Tl) as (Til & _). destruct (build_list_spec V vz h r Sh Tr) as (Tir & _).
    rewrite (tiled_width V _ _ Til), (tiled_width V _ _ Tir), Ew, Nat.eqb_refl. cbn [negb].
    destruct (aligned_hyp vz h Sh l r Lv Tl Nd Po Tr Ew (conj O1 (conj O2 O3))) as (gs & W & E & F2 & Hw & Hg & Hr).
    rewrite E. cbn [option_map]. exists (SAligned 0 bl gs), gs, W. split; [reflexivity|]. split; [reflexivity|].
    destruct (Al gs) as (A1 & A2 & A3). split; [exact A1|]. split; [exact A2|]. split; [exact A3|]. split; [exact Hw|]. split; [exact Hg|]. split; [exact Hr|]. split; [|unfold wrs; destruct bl; reflexivity].
    intros g t i Ig B. destruct (F2_in_r _ _ _ g F2 Ig) as (x & Ix & _ & Sp).
    destruct (seg_lhs vz h Sh l r Tl Tr Ew x g t i Ix Sp B) as (k & j & _ & -> & N). exists j. split; [reflexivity|]. eapply nth_error_In; eauto.
  - destruct (whole_hyp vz h l r Lv Tl Nd Po (Un eq_refl)) as (Hw & Hg & Hr & Hl).
    eexists _, [whole l r], _. split; [reflexivity|]. split; [intros s A; now apply legacy_aligned|].
    split; [|split; [|split; [|split; [exact Hw|split; [exact Hg|split; [exact Hr|split; [|unfold wrs; destruct bl; cbn; now rewrite ?static_all, app_nil_r]]]]]]].
    + intros g t b [<-|[]] I. destruct bl; cbn; rewrite ?static_all; unfold writes; apply in_map_iff; exists (t, b); auto.
    + intros l0 t b I. destruct bl; cbn in I; rewrite ?static_all in I; unfold writes in I; apply in_map_iff in I; destruct I as ([t' b'] & E & I); cbn in E; injection E as <- <- <-;
        (exists (whole l r); split; [now left|exact I]).
    + intros g t b [<-|[]] I. cbn in I. rewrite app_nil_r in I. exact I.
    + intros g t i [<-|[]] B. now apply Hl.
Qed.
Lemma assign_out : forall bs xs (e : env) s i, ~ In (s, i) bs -> assign vz bs xs e s i = e s i.
Proof.
  induction bs as [|[t j] bs IH]; intros xs e s i N; [reflexivity|]. cbn. destruct (Nat.eqb_spec s t) as [->|]; cbn; [|apply IH; intros I; apply N; now right].
  destruct (Nat.eqb_spec i j) as [->|]; [destruct N; now left|]. apply IH. intros I. apply N. now right.
Qed.
Lemma assign_nth : forall bs xs (e : env) k s i, NoDup bs -> nth_error bs k = Some (s, i) -> assign vz bs xs e s i = nth k xs vz.
Proof.
  induction bs as [|[t j] bs IH]; intros xs e k s i Nd K; [destruct k; discriminate|]. inversion Nd as [|? ? N1 N2]; subst. destruct k as [|k]; cbn in K.
  - injection K as -> ->. cbn. rewrite !Nat.eqb_refl. cbn. destruct xs; reflexivity.
  - cbn. assert (I : In (s, i) bs) by (eapply nth_error_In; eauto). destruct (Nat.eqb_spec s t) as [->|]; cbn.
    + destruct (Nat.eqb_spec i j) as [->|]; [contradiction|]. rewrite (IH (tl xs) e k s i N2 K) || rewrite (IH (tl xs) e k t i N2 K). destruct xs; cbn; [now destruct k|reflexivity].
    + rewrite (IH (tl xs) e k s i N2 K). destruct xs; cbn; [now destruct k|reflexivity].
Qed.

(** * Ghosts *)
(** [X n v t j]: the value that node [n] writes to the bit when the block starts from
    [v], if it does; [C n v]: the branch that condition [n] selects. *)
Notation ghX := (nat -> env -> nat -> nat -> option V).
Notation ghC := (nat -> env -> option nat).
Variable W : trace.
Hypothesis aligned : aligned_writes W.
(** The first node of the block. *)
Variable N0 : nat.

Definition same (X : ghX) (C : ghC) (n : nat) (v1 v2 : env) : Prop := C n v1 = C n v2 /\ forall t j, X n v1 t j = X n v2 t j.
(** What node [n] does is determined by the nodes with an edge to it and the bits that it
    reads. *)
Definition Bd (f : fx) (X : ghX) (C : ghC) (n : nat) : Prop := forall v1 v2,
  (forall m, N0 <= m < n -> joined (fdeps f) m n -> same X C m v1 v2) ->
  (forall t j, pended (fpend f) n t (Z.of_nat j) -> (forall p, In p ports -> t <> fp_id p) -> v1 t j = v2 t j) -> same X C n v1 v2.
(** [O]: case statements whose items are still to be visited. *)
Definition BallO (O : nat -> Prop) (f : fx) (X : ghX) (C : ghC) : Prop := forall n, N0 <= n < fnext f -> ~ O n -> Bd f X C n.
Definition Fresh (f : fx) (X : ghX) (C : ghC) : Prop := forall n v, fnext f <= n -> C n v = None /\ forall t j, X n v t j = None.
Definition ext (N : nat) (X : ghX) (C : ghC) (X' : ghX) (C' : ghC) : Prop := forall n, n < N -> X' n = X n /\ C' n = C n.
Record Inv (f : fx) (a : astate) (X : ghX) (E : env -> env) (act : env -> bool) (D M : nat -> nat -> Prop) : Prop := {
  v_ok : okA W a;
  v_reach : areach a = true;
  v_lt : forall t i m, hasA a t i m -> N0 <= m < fnext f;
  v_M : forall t j m, hasA a t (Z.of_nat j) m -> M t j;
  v_val : forall v t j, act v = true ->
    (exists m, hasA a t (Z.of_nat j) m /\ X m v t j = Some (E v t j) /\ forall n x, N0 <= n -> X n v t j = Some x -> n <= m) \/
    (~ D t j /\ E v t j = v t j /\ forall n, N0 <= n -> X n v t j = None) }.
Definition ctl (f : fx) (a : astate) (C : ghC) (act : env -> bool) : Prop :=
  (forall v, act v = true) \/ exists c k, acond a = Some c /\ N0 <= c < fnext f /\ forall v, act v = k (C c v).

Lemma ext_refl N X C : ext N X C X C.
Proof. intros n _. auto. Qed.
Lemma ext_trans N N' X C X1 C1 X2 C2 : N <= N' -> ext N X C X1 C1 -> ext N' X1 C1 X2 C2 -> ext N X C X2 C2.
Proof. intros L A B n H. destruct (A n H) as [<- <-]. apply B. lia. Qed.
Lemma same_ext N X C X' C' n v1 v2 : ext N X C X' C' -> n < N -> (same X' C' n v1 v2 <-> same X C n v1 v2).
Proof. intros E L. unfold same. destruct (E n L) as [-> ->]. reflexivity. Qed.
Lemma Bd_mono f f' X C X' C' n : gle f f' -> ext (S n) X C X' C' -> Bd f X C n -> Bd f' X' C' n.
Proof.
  intros [(_ & _ & Dd & Pp) _] E B v1 v2 H1 H2. apply (same_ext _ _ _ _ _ _ _ _ E); [lia|]. apply B.
  - intros m L J. apply (same_ext _ _ _ _ _ _ _ _ E); [lia|]. apply H1; [exact L|]. eapply joined_incl; eauto.
  - intros t j P. apply H2. eapply pended_incl; eauto.
Qed.
Lemma ext_le N N' X C X' C' : N <= N' -> ext N' X C X' C' -> ext N X C X' C'.
Proof. intros L E n H. apply E. lia. Qed.
(** New nodes that do nothing. *)
Lemma Ball_gle O f f' X C : gle f f' -> Fresh f X C -> BallO O f X C -> BallO O f' X C.
Proof.
  intros G Fr B n L No. destruct (Nat.lt_ge_cases n (fnext f)) as [Ln|Ln].
  - eapply Bd_mono; [exact G|apply ext_refl|]. apply B; [lia|exact No].
  - intros v1 v2 _ _. destruct (Fr n v1 Ln) as [A1 A2], (Fr n v2 Ln) as [A3 A4]. split; [congruence|]. intros t j. now rewrite A2, A4.
Qed.
Lemma Fresh_gle f f' X C : gle f f' -> Fresh f X C -> Fresh f' X C.
Proof. intros G Fr n v L. apply Fr. pose proof (gle_next _ _ G). lia. Qed.

Lemma Inv_weak f a X E E' (act act' : env -> bool) (D D' M M' : nat -> nat -> Prop) : Inv f a X E act D M -> (forall v, act' v = true -> act v = true) ->
  (forall v, act' v = true -> E' v = E v) -> (forall t j, D' t j -> D t j) -> (forall t j, M t j -> M' t j) -> Inv f a X E' act' D' M'.
Proof.
  intros [I1 I2 I3 I4 I5] Ha He Hd Hm. split; eauto. intros v t j A. rewrite (He v A). destruct (I5 v t j (Ha v A)) as [H|(H1 & H2)]; [now left|]. right. split; [|exact H2]. auto.
Qed.
Lemma Inv_frame f f' a X C X' C' E (act : env -> bool) D M : Inv f a X E act D M -> fnext f <= fnext f' -> ext (fnext f) X C X' C' -> Fresh f X C ->
  (forall n v t j, fnext f <= n -> act v = true -> X' n v t j = None) -> Inv f' a X' E act D M.
Proof.
  intros [I1 I2 I3 I4 I5] L Ex Fr Nw. split; auto.
  - intros t i m H. specialize (I3 t i m H). lia.
  - assert (Eq : forall n v t j, act v = true -> X' n v t j = X n v t j).
    { intros n v t j A. destruct (Nat.lt_ge_cases n (fnext f)) as [Ln|Ln]; [now rewrite (proj1 (Ex n Ln))|].
      rewrite (Nw n v t j Ln A). symmetry. apply (Fr n v Ln). }
    intros v t j A. destruct (I5 v t j A) as [(m & H1 & H2 & H3)|(H1 & H2 & H3)].
    + left. exists m. split; [exact H1|]. rewrite Eq by exact A. split; [exact H2|]. intros n x L0 Q. rewrite Eq in Q by exact A. eauto.
    + right. split; [exact H1|]. split; [exact H2|]. intros n L0. rewrite Eq by exact A. auto.
Qed.
Lemma Inv_join f f' a1 a2 a' X E1 E2 E' (act1 act2 act : env -> bool) (D1 D2 D' M1 M2 M' : nat -> nat -> Prop) :
  Inv f a1 X E1 act1 D1 M1 -> Inv f a2 X E2 act2 D2 M2 -> fnext f <= fnext f' -> okA W a' -> areach a' = true ->
  (forall t i m, hasA a' t i m <-> hasA a1 t i m \/ hasA a2 t i m) ->
  (forall v, act v = true -> (act1 v = true /\ E' v = E1 v) \/ (act2 v = true /\ E' v = E2 v)) ->
  (forall t j, D' t j -> D1 t j /\ D2 t j) -> (forall t j, M1 t j \/ M2 t j -> M' t j) -> Inv f' a' X E' act D' M'.
Proof.
  intros [I1 I2 I3 I4 I5] [J1 J2 J3 J4 J5] L Ok Re Ha Hact HD HM. split; auto.
  - intros t i m H. apply Ha in H. destruct H as [H|H]; [specialize (I3 t i m H)|specialize (J3 t i m H)]; lia.
  - intros t j m H. apply HM. apply Ha in H. destruct H as [H|H]; [left; eauto|right; eauto].
  - intros v t j A. destruct (Hact v A) as [[B ->]|[B ->]].
    + destruct (I5 v t j B) as [(m & H1 & H2)|(H1 & H2)]; [left; exists m; split; [apply Ha; now left|exact H2]|].
      right. split; [|exact H2]. intros Q. now apply H1, HD.
    + destruct (J5 v t j B) as [(m & H1 & H2)|(H1 & H2)]; [left; exists m; split; [apply Ha; now right|exact H2]|].
      right. split; [|exact H2]. intros Q. now apply H1, HD.
Qed.

(** Equal values of a bit that has been read. *)
Lemma rd_same f f' a X C E (act : env -> bool) D M n t j v1 v2 : Inv f a X E act D M -> D t j \/ ~ M t j ->
  rdone a f' n t (Z.of_nat j) -> act v1 = true -> act v2 = true ->
  (forall p, In p ports -> t <> fp_id p) ->
  (forall m, N0 <= m < fnext f -> joined (fdeps f') m n -> same X C m v1 v2) ->
  (forall t j, pended (fpend f') n t (Z.of_nat j) -> (forall p, In p ports -> t <> fp_id p) -> v1 t j = v2 t j) ->
  E v1 t j = E v2 t j.
Proof.
  intros [I1 I2 I3 I4 I5] Hd [R1 R2] A1 A2 Np Hs Hp. destruct Hd as [Dt|Nm].
  - destruct (I5 v1 t j A1) as [(m1 & P1 & P2 & P3)|(Nd & _)]; [|contradiction].
    destruct (I5 v2 t j A2) as [(m2 & Q1 & Q2 & Q3)|(Nd & _)]; [|contradiction].
    destruct (Hs m1 (I3 _ _ _ P1) (R2 _ P1)) as [_ S1]. destruct (Hs m2 (I3 _ _ _ Q1) (R2 _ Q1)) as [_ S2].
    rewrite (S1 t j) in P2. rewrite <- (S2 t j) in Q2. pose proof (P3 _ _ (proj1 (I3 _ _ _ Q1)) Q2). pose proof (Q3 _ _ (proj1 (I3 _ _ _ P1)) P2).
    assert (m1 = m2) by lia. subst m2. rewrite S2 in Q2. congruence.
  - assert (No : forall m, ~ hasA a t (Z.of_nat j) m) by (intros m Q; apply Nm; eauto).
    assert (En : forall v, act v = true -> E v t j = v t j).
    { intros v A. destruct (I5 v t j A) as [(m & P1 & _)|(_ & P2 & _)]; [destruct (No m P1)|exact P2]. }
    rewrite (En v1 A1), (En v2 A2). apply Hp; [now apply R1|exact Np].
Qed.
(** Equal activity. *)
Lemma act_same f f' a X C (act : env -> bool) n v1 v2 : ctl f a C act -> ctl_edge (acond a) f' n ->
  (forall m, N0 <= m < fnext f -> joined (fdeps f') m n -> same X C m v1 v2) -> act v1 = act v2.
Proof.
  intros [A|(c & k & Ec & Lc & A)] Ct Hs; [now rewrite !A|]. rewrite !A. f_equal. apply (Hs c Lc (Ct c Ec)).
Qed.

(** * Statements *)
Definition Res (O : nat -> Prop) (s s' : st) (X : ghX) (C : ghC) (X' : ghX) (C' : ghC) (act : env -> bool) : Prop :=
  gle (fxs s) (fxs s') /\ ext (fnext (fxs s)) X C X' C' /\ Fresh (fxs s') X' C' /\ BallO O (fxs s') X' C' /\
  forall n v t j x, fnext (fxs s) <= n -> X' n v t j = Some x -> act v = true.
Definition in_trace (q : stmt) : Prop := incl (all_writes q) W /\ forall t b, In (t, b) (read_refs q) -> fitsW W t b.

Definition wb (L : list (seg * nat)) (n t j : nat) : bool :=
  existsb (fun x => Nat.eqb (snd x) n && existsb (fun r => Nat.eqb (fst r) t && bitb (snd r) (Z.of_nat j)) (slhs (fst x))) L.
Lemma wb_spec L n t j : wb L n t j = true <-> written L t (Z.of_nat j) n.
Proof.
  unfold wb, written. rewrite existsb_exists. split.
  - intros ([g m] & I & Q). cbn in Q. apply andb_true_iff in Q. destruct Q as [Q1 Q2]. apply Nat.eqb_eq in Q1. subst m. exists g. split; [exact I|].
    apply existsb_exists in Q2. destruct Q2 as ([t' b] & Ib & Q2). cbn in Q2. apply andb_true_iff in Q2. destruct Q2 as [Q2 Q3]. apply Nat.eqb_eq in Q2. subst t'.
    exists b. split; [exact Ib|now apply bitb_spec].
  - intros (g & I & b & Ib & Q). exists (g, n). split; [exact I|]. cbn. rewrite Nat.eqb_refl. cbn. apply existsb_exists. exists (t, b). split; [exact Ib|].
    cbn. rewrite Nat.eqb_refl. now apply bitb_spec.
Qed.

Lemma asg_block bl l r q s X C E (act : env -> bool) D M O : asg_ok bl l r -> settled_read D M r -> pasg_stmt vz rb h bl l r = Some q -> in_trace q ->
  N0 <= fnext (fxs s) -> Fresh (fxs s) X C -> BallO O (fxs s) X C -> Inv (fxs s) (cur s) X E act D M -> ctl (fxs s) (cur s) C act ->
  exists s' X' C', exec s q = DOk s' /\ Res O s s' X C X' C' act /\
    Inv (fxs s') (cur s') X' (fun v => assign vz (lbits l) (eval vz (E v) r) (E v)) act (fun t j => D t j \/ In (t, j) (lbits l)) (fun t j => M t j \/ In (t, j) (lbits l)).
Proof.
  intros Ok Rd Eq [It1 It2] L0 Fr Ba Iv Ct. destruct (asg_segs bl l r) as (q' & gs & Wa & Eq' & Ex & Aw1 & _ & Ar & _ & Hg & (_ & _ & Hap & Hfr) & Hl & _); [now apply asg_ok_shape with bl|].
  rewrite Eq in Eq'. injection Eq' as <-. destruct Ok as (-> & (Lv & Tl & Nd & _ & Un) & (Po & Np & Rs) & _ & Ew & Sr). specialize (Hfr Sr). cbn [wrs] in Aw1.
  pose proof Iv as Iv0. destruct Iv0 as [I1 I2 I3 I4 I5].
  destruct (aligned_run nm W aligned gs) with (s0 := s) as (s' & L & E1 & Li & ML); auto.
  { intros g t b Ig I. exists 0, b. split; [apply It1; eauto|auto]. }
  { intros g t b Ig I. apply It2. eauto. }
  rewrite Ex by exact I2. destruct Li as [O' R' G' H' Nn].
  set (E' := fun v => assign vz (lbits l) (eval vz (E v) r) (E v)).
  set (X' := fun n => if n <? fnext (fxs s) then X n else fun v t j => if act v && wb L n t j then Some (E' v t j) else None).
  assert (X'o : forall n, n < fnext (fxs s) -> X' n = X n) by (intros n Ln; unfold X'; now rewrite (proj2 (Nat.ltb_lt _ _) Ln)).
  assert (X'n : forall n v t j, fnext (fxs s) <= n -> X' n v t j = if act v && wb L n t j then Some (E' v t j) else None).
  { intros n v t j Ln. unfold X'. now rewrite (proj2 (Nat.ltb_ge _ _) Ln). }
  assert (Wl : forall t j m, written L t (Z.of_nat j) m -> In (t, j) (lbits l)).
  { intros t j m (g & Ig & B). apply (in_map fst) in Ig. rewrite ML in Ig. destruct (Hl g t _ Ig B) as (j' & Ej & I). apply Nat2Z.inj in Ej. now subst j'. }
  assert (Lw : forall t j, In (t, j) (lbits l) -> exists m, written L t (Z.of_nat j) m).
  { intros t j I. apply In_nth_error in I. destruct I as (k & K). destruct (Hg k t j K) as (g & A & Ig & B & _). rewrite <- ML in Ig. apply in_map_iff in Ig.
    destruct Ig as ([g' m] & Eg & I). cbn in Eg. subst g'. exists m, g. auto. }
  assert (Wu : forall t j m g m' g', In (g, m) L -> rbit (slhs g) t (Z.of_nat j) -> In (g', m') L -> rbit (slhs g') t (Z.of_nat j) -> m' = m /\ g' = g).
  { intros t j m g m' g' I B I' B'. apply in_split in I. destruct I as (l1 & l2 & EL).
    assert (ML' : gs = map fst l1 ++ g :: map fst l2) by (rewrite <- ML, EL, map_app; reflexivity).
    rewrite EL in I'. apply in_app_or in I'. destruct I' as [I'|[[= <- <-]|I']]; [|auto|]; exfalso; apply (in_map fst) in I'; cbn in I'; apply in_split in I'; destruct I' as (p & q0 & Ep); rewrite Ep in ML'.
    - rewrite <- app_assoc in ML'. cbn in ML'. exact (Hap _ _ _ _ _ ML' _ _ (conj B' B)).
    - exact (Hap _ _ _ _ _ ML' _ _ (conj B B')). }
  exists s', X', C. split; [exact E1|]. split.
  - split; [exact G'|]. split; [intros n Ln; auto|]. pose proof (gle_next _ _ G') as Le. split; [|split].
    + intros n v Ln. split; [apply Fr; lia|]. intros t j. rewrite X'n by lia. destruct (wb L n t j) eqn:Wb; [|now rewrite andb_false_r].
      apply wb_spec in Wb. destruct Wb as (g & Ig & _). destruct (Nn g n Ig). lia.
    + intros n Ln Nop. destruct (Nat.lt_ge_cases n (fnext (fxs s))) as [Lo|Lo].
      * apply (Bd_mono (fxs s) (fxs s') X C X' C n); auto; [|apply Ba; [lia|exact Nop]]. intros k Lk. split; [apply X'o; lia|reflexivity].
      * intros v1 v2 H1 H2. split; [destruct (Fr n v1 Lo) as [-> _], (Fr n v2 Lo) as [-> _]; reflexivity|].
        assert (H1' : forall m, N0 <= m < fnext (fxs s) -> joined (fdeps (fxs s')) m n -> same X C m v1 v2).
        { intros m Lm J. specialize (H1 m ltac:(lia) J). unfold same in *. rewrite X'o in H1 by lia. exact H1. }
        intros t j. rewrite !X'n by exact Lo. destruct (wb L n t j) eqn:Wb; [|now rewrite !andb_false_r].
        apply wb_spec in Wb. destruct Wb as (g & Ig & B). destruct (Nn g n Ig) as (_ & Cn & Rn).
        rewrite (act_same _ _ _ X C act n v1 v2 Ct Cn H1'). destruct (act v2) eqn:A2; [|reflexivity]. cbn. f_equal.
        assert (A1 : act v1 = true) by (rewrite (act_same _ _ _ X C act n v1 v2 Ct Cn H1'); exact A2).
        assert (Il : In (t, j) (lbits l)) by (eapply Wl; exists g; eauto). apply In_nth_error in Il. destruct Il as (k & K).
        unfold E'. rewrite !(assign_nth _ _ _ k t j Nd K). destruct (Hg k t j K) as (g' & A & Ig' & B' & IA & RA & DA).
        assert (g' = g).
        { rewrite <- ML in Ig'. apply in_map_iff in Ig'. destruct Ig' as ([g2 m2] & Eg & I2'). cbn in Eg. subst g2. apply (Wu t j n g m2 g'); auto. }
        subst g'. apply DA. intros t' j' J. apply (rd_same (fxs s) (fxs s') (cur s) X C E act D M n t' j' v1 v2); auto.
        intros p Ip. eapply Np; [apply IA, J|exact Ip].
    + intros n v t j x Ln Q. rewrite X'n in Q by exact Ln. now destruct (act v).
  - split; auto.
    + intros t i m Q. apply H' in Q. pose proof (gle_next _ _ G'). destruct Q as [(g & Ig & _)|[_ Q]]; [destruct (Nn g m Ig); lia|]. specialize (I3 t i m Q). lia.
    + intros t j m Q. apply H' in Q. destruct Q as [Q|[_ Q]]; [right; eapply Wl; eauto|left; eauto].
    + intros v t j A. destruct (in_dec (fun a b : nat * nat => ltac:(decide equality; apply Nat.eq_dec) : {a = b} + {a <> b}) (t, j) (lbits l)) as [Il|Nl].
      * left. destruct (Lw t j Il) as (m & Wm). exists m. destruct Wm as (g & Ig & B). destruct (Nn g m Ig) as (Lm & _).
        split; [apply H'; left; exists g; auto|]. split.
        -- rewrite X'n by lia. rewrite A. replace (wb L m t j) with true; [reflexivity|]. symmetry. apply wb_spec. exists g. auto.
        -- intros n x Ln Q. destruct (Nat.lt_ge_cases n (fnext (fxs s))) as [Lo|Lo]; [lia|]. rewrite X'n in Q by exact Lo. rewrite A in Q. cbn in Q.
           destruct (wb L n t j) eqn:Wb; [|discriminate]. apply wb_spec in Wb. destruct Wb as (g' & Ig' & B'). destruct (Wu t j m g n g' Ig B Ig' B'). lia.
      * assert (Nw : forall m, ~ written L t (Z.of_nat j) m) by (intros m Q; apply Nl; eapply Wl; eauto).
        assert (Eo : E' v t j = E v t j) by (unfold E'; now apply assign_out).
        assert (Xo : forall n x, X' n v t j = Some x -> X n v t j = Some x).
        { intros n x Q. destruct (Nat.lt_ge_cases n (fnext (fxs s))) as [Lo|Lo]; [now rewrite X'o in Q|]. rewrite X'n in Q by exact Lo.
          destruct (wb L n t j) eqn:Wb; [apply wb_spec in Wb; destruct (Nw _ Wb)|]. rewrite andb_false_r in Q. discriminate. }
        fold (E' v). rewrite Eo. destruct (I5 v t j A) as [(m & P1 & P2 & P3)|(P1 & P2 & P3)].
        -- left. exists m. split; [apply H'; right; split; [intros (m' & Q); exact (Nw _ Q)|exact P1]|]. split; [rewrite X'o; [exact P2|apply (I3 _ _ _ P1)]|].
           intros n x Ln Q. eauto.
        -- right. split; [intros [Q|Q]; auto|]. split; [exact P2|]. intros n Ln. destruct (X' n v t j) as [x|] eqn:Q; [|reflexivity]. apply Xo in Q. rewrite (P3 n Ln) in Q. discriminate.
Qed.

(** The node of a condition or a selector; [es]: what it reads at once, [ch]: the branch
    that it selects. *)
Lemma read_many n (es : list expr) s : anode (cur s) = Some n -> areach (cur s) = true -> okA W (cur s) ->
  (forall t b, In (t, b) (flat_map refs es) -> fitsW W t b) -> (forall y, In y es -> cond_ok ports y) ->
  exists s', M_DFA.each (noteReference nm (fun _ => false) None None) s (flat_map refs es) = DOk s' /\ cur s' = cur s /\ gle (fxs s) (fxs s') /\
    forall y t j, In y es -> In (t, j) (reads y) -> rdone (cur s) (fxs s') n t (Z.of_nat j).
Proof.
  intros An Ar Ok Fi Oc. destruct (read_refs_ok nm W n (flat_map refs es) s An Ar Ok Fi) as (s' & E & Cu & G & R).
  exists s'. split; [exact E|]. split; [exact Cu|]. split; [exact G|]. intros y t j Iy I. apply R.
  assert (Q : rbit (refs y) t (Z.of_nat j)) by (apply refs_reads; [apply (Oc y Iy)|exact I]). destruct Q as (b & Ib & B). exists b. split; [apply in_flat_map; eauto|exact B].
Qed.
Lemma enter_gen k (es : list expr) ch s X C E (act : env -> bool) D M O : (forall y, In y es -> cond_ok ports y) -> (forall t b, In (t, b) (flat_map refs es) -> fitsW W t b) ->
  N0 <= fnext (fxs s) -> Fresh (fxs s) X C -> BallO O (fxs s) X C -> Inv (fxs s) (cur s) X E act D M ->
  exists s1 C1, M_DFA.each (noteReference nm (fun _ => false) None None) (let '(s1, n) := create s k in updateNode s1 n true) (flat_map refs es) = DOk s1 /\
    gle (fxs s) (fxs s1) /\ fnext (fxs s) < fnext (fxs s1) /\
    ext (fnext (fxs s)) X C X C1 /\ Fresh (fxs s1) X C1 /\ BallO (fun n => O n \/ n = fnext (fxs s)) (fxs s1) X C1 /\ Inv (fxs s1) (cur s1) X E act D M /\
    anode (cur s1) = Some (fnext (fxs s)) /\ acond (cur s1) = Some (fnext (fxs s)) /\ ctl_edge (acond (cur s)) (fxs s1) (fnext (fxs s)) /\
    (forall t i m, hasA (cur s1) t i m <-> hasA (cur s) t i m) /\
    (forall v, C1 (fnext (fxs s)) v = if act v then Some (ch v) else None) /\
    forall y t j, In y es -> In (t, j) (reads y) -> rdone (cur s) (fxs s1) (fnext (fxs s)) t (Z.of_nat j).
Proof.
  intros Oc Fi L0 Fr Ba Iv.
  pose proof (new_node nm s k true) as Nn. cbv zeta in Nn. destruct (create s k) as [s0 n] eqn:Ec. set (s2 := updateNode s0 n true) in *.
  destruct Nn as (En & Nx & G2 & Cn & Cu). cbn [cur] in Cu. pose proof Iv as Iv0. destruct Iv0 as [I1 I2 I3 I4 I5].
  destruct (read_many n es s2) as (s3 & E3 & C3 & G3 & R3); [now rewrite Cu|rewrite Cu; exact I2|rewrite Cu; exact I1|exact Fi|exact Oc|].
  set (C1 := fun k => if Nat.eqb k n then fun v => if act v then Some (ch v) else None else C k).
  assert (G : gle (fxs s) (fxs s3)) by (eapply gle_trans; eauto).
  assert (Nx3 : fnext (fxs s) < fnext (fxs s3)) by (pose proof (gle_next _ _ G3); lia).
  assert (Ne : forall k, k <> n -> C1 k = C k) by (intros k' Nk; unfold C1; destruct (Nat.eqb_spec k' n); [contradiction|reflexivity]).
  assert (Hs : forall t i m, hasA (cur s2) t i m <-> hasA (cur s) t i m) by (intros; rewrite Cu; reflexivity).
  rewrite <- En.
  exists s3, C1. split; [exact E3|]. split; [exact G|]. split; [lia|]. split; [|split; [|split; [|split; [|split; [|split; [|split; [|split; [|split]]]]]]]].
  - intros k' Lk. split; [reflexivity|]. apply Ne. lia.
  - intros k' v Lk. split; [rewrite Ne by lia; apply Fr; lia|apply Fr; lia].
  - intros k' Lk No. destruct (Nat.lt_ge_cases k' n) as [Lk'|Lk'].
    + apply (Bd_mono (fxs s) (fxs s3) X C X C1 k'); auto; [|apply Ba; [lia|tauto]]. intros k2 Lk2. split; [reflexivity|]. apply Ne. lia.
    + intros v1 v2 _ _. unfold same. rewrite Ne by tauto. destruct (Fr k' v1) as [Q1 Q2]; [lia|]. destruct (Fr k' v2) as [Q3 Q4]; [lia|].
      split; [congruence|]. intros t j. now rewrite Q2, Q4.
  - apply (Inv_frame (fxs s) (fxs s3) (cur s3) X C X C); auto; [|lia|apply ext_refl|intros k' v t j Lk _; now apply Fr].
    rewrite C3. split; auto; try (rewrite Cu; assumption).
  - rewrite C3, Cu. reflexivity.
  - rewrite C3, Cu. reflexivity.
  - eapply ctl_gle; [exact G3|exact Cn].
  - intros t i m. rewrite C3. apply Hs.
  - intros v. unfold C1. now rewrite Nat.eqb_refl.
  - intros y t j Iy I. eapply rdone_same; [apply Hs|]. now apply (R3 y).
Qed.
(** Once all is read, the branch is determined. *)
Lemma close_node (es : list expr) ch s f X C X' C' E (act : env -> bool) D M : Inv (fxs s) (cur s) X E act D M -> ctl (fxs s) (cur s) C act ->
  ctl_edge (acond (cur s)) f (fnext (fxs s)) -> (forall y, In y es -> cond_ok ports y) -> (forall y, In y es -> settled_read D M y) ->
  (forall y t j, In y es -> In (t, j) (reads y) -> rdone (cur s) f (fnext (fxs s)) t (Z.of_nat j)) ->
  (forall v1 v2, (forall y, In y es -> eval vz (E v1) y = eval vz (E v2) y) -> ch v1 = ch v2) ->
  ext (fnext (fxs s)) X C X' C' -> (forall v, C' (fnext (fxs s)) v = if act v then Some (ch v) else None) -> (forall v t j, X' (fnext (fxs s)) v t j = None) ->
  Bd f X' C' (fnext (fxs s)).
Proof.
  intros Iv Ct Cn Oc Rd Rn Hch Ex Cv Xn v1 v2 H1 H2. set (n := fnext (fxs s)) in *.
  assert (H1' : forall m, N0 <= m < n -> joined (fdeps f) m n -> same X C m v1 v2).
  { intros m Lm J. apply (same_ext n X C X' C'); [exact Ex|lia|]. apply H1; auto. }
  pose proof (act_same _ _ _ X C act n v1 v2 Ct Cn H1') as Ea.
  split; [|intros t j; now rewrite !Xn]. rewrite !Cv, Ea. destruct (act v2) eqn:A2; [|reflexivity]. f_equal. apply Hch.
  intros y Iy. apply reads_eval. intros t j J. apply (rd_same (fxs s) f (cur s) X C E act D M n t j v1 v2); auto.
  - now apply (Rd y).
  - now apply (Rn y).
  - intros p Ip. eapply (proj2 (proj2 (Oc y Iy))); eauto.
Qed.
Lemma open_close O n f X C : BallO (fun k => O k \/ k = n) f X C -> Bd f X C n -> BallO O f X C.
Proof. intros B Bn k Lk No. destruct (Nat.eq_dec k n) as [->|Nk]; [exact Bn|]. apply B; [exact Lk|tauto]. Qed.
Definition sel (b : bool) : nat := if b then 1 else 0.
Lemma enter_block c s X C E (act : env -> bool) D M O : cond_ok ports c -> settled_read D M c -> (forall t b, In (t, b) (refs c) -> fitsW W t b) ->
  N0 <= fnext (fxs s) -> Fresh (fxs s) X C -> BallO O (fxs s) X C -> Inv (fxs s) (cur s) X E act D M -> ctl (fxs s) (cur s) C act ->
  exists s1 C1, enter_if nm (fun _ => false) None s 0 None (refs c) = DOk s1 /\ gle (fxs s) (fxs s1) /\ fnext (fxs s) < fnext (fxs s1) /\
    ext (fnext (fxs s)) X C X C1 /\ Fresh (fxs s1) X C1 /\ BallO O (fxs s1) X C1 /\ Inv (fxs s1) (cur s1) X E act D M /\
    acond (cur s1) = Some (fnext (fxs s)) /\ forall v, C1 (fnext (fxs s)) v = if act v then Some (sel (istrue (eval vz (E v) c))) else None.
Proof.
  intros Oc Rd Fi L0 Fr Ba Iv Ct. unfold enter_if.
  assert (One : forall y, In y [c] -> y = c) by (intros y [->|[]]; reflexivity).
  destruct (enter_gen (KCond 0) [c] (fun v => sel (istrue (eval vz (E v) c))) s X C E act D M O) as (s1 & C1 & E1 & G1 & L1 & X1 & F1 & B1 & I1 & An & Ac & Ce & Hs & Cv & R1); auto.
  { intros y Iy. now rewrite (One y Iy). } { cbn [flat_map]. now rewrite app_nil_r. }
  cbn [flat_map] in E1. rewrite app_nil_r in E1. exists s1, C1. split; [exact E1|]. split; [exact G1|]. split; [exact L1|]. split; [exact X1|]. split; [exact F1|].
  split; [|auto]. apply (open_close O (fnext (fxs s))); [exact B1|].
  apply (close_node [c] (fun v => sel (istrue (eval vz (E v) c))) s (fxs s1) X C X C1 E act D M); auto.
  - intros y Iy. now rewrite (One y Iy).
  - intros y Iy. now rewrite (One y Iy).
  - intros v1 v2 H. now rewrite (H c (or_introl eq_refl)).
  - intros v t j. now apply Fr.
Qed.

Lemma read_app q1 q2 : in_trace (SSeq q1 q2) -> in_trace q1 /\ in_trace q2.
Proof.
  intros [A B]. cbn in A, B. split; (split; [intros x I; apply A, in_or_app; auto|intros t b I; apply B, in_or_app; auto]).
Qed.
Definition goal_of (p : pst V) : Prop := forall s X C E (act : env -> bool) (D M : nat -> nat -> Prop) O q, stmt_ok p -> reads_ok D M p -> proc_stmt p = Some q -> in_trace q ->
  N0 <= fnext (fxs s) -> Fresh (fxs s) X C -> BallO O (fxs s) X C -> Inv (fxs s) (cur s) X E act D M -> ctl (fxs s) (cur s) C act ->
  exists s' X' C', exec s q = DOk s' /\ Res O s s' X C X' C' act /\
    Inv (fxs s') (cur s') X' (fun v => prun p (E v)) act (fun t j => D t j \/ must p t j) (fun t j => M t j \/ may p t j).
(** The items of a case: the expressions, and the item that is selected. *)
Fixpoint cexprs (x : pcl V) : list expr :=
  match x with PDefault _ => [] | PItem xs _ r => xs ++ cexprs r end.
Definition hit (xs : list expr) (u : list V) (e : env) : bool := existsb (fun y => hits u (eval vz e y)) xs.
Fixpoint cpick (x : pcl V) (u : list V) (e : env) (j : nat) : nat :=
  match x with PDefault _ => j | PItem xs _ r => if hit xs u e then j else cpick r u e (S j) end.
Lemma hit_eq xs u e1 e2 : (forall y, In y xs -> eval vz e1 y = eval vz e2 y) -> hit xs u e1 = hit xs u e2.
Proof.
  unfold hit. induction xs as [|x xs IH]; intros H; [reflexivity|]. cbn. rewrite (H x) by now left. f_equal. apply IH. intros y I. apply H. now right.
Qed.
Lemma cpick_eq : forall x u e1 e2 j, (forall y, In y (cexprs x) -> eval vz e1 y = eval vz e2 y) -> cpick x u e1 j = cpick x u e2 j.
Proof.
  fix IH 1. intros [p|xs p r] u e1 e2 j H; [reflexivity|]. cbn in *. rewrite (hit_eq xs u e1 e2) by (intros y I; apply H, in_or_app; now left).
  destruct (hit xs u e2); [reflexivity|]. apply IH. intros y I. apply H, in_or_app. now right.
Qed.
Definition in_ctrace (q : clist) : Prop := incl (call_writes q) W /\ forall t b, In (t, b) (cread_refs q) -> fitsW W t b.
(** [rem]: none of the items so far is selected; [acc]: the join of the items so far. *)
Definition goal_items (r : pcl V) : Prop := csingle r -> forall s a0 acc n j X C E G (act rem : env -> bool) (D M Df Mf : nat -> nat -> Prop) O us q,
  items_ok r -> creads_ok D M r -> proc_items r = Some q -> in_ctrace q ->
  N0 <= n < fnext (fxs s) -> Fresh (fxs s) X C -> BallO O (fxs s) X C -> Inv (fxs s) a0 X E rem D M ->
  anode a0 = Some n -> acond a0 = Some n -> (forall v, rem v = true -> act v = true) ->
  (forall v, rem v = true -> C n v = Some (cpick r (us v) (E v) j)) -> (forall v i, rem v = false -> C n v = Some i -> i < j) ->
  (acc = unreachableState /\ (forall v, act v = true -> rem v = true)) \/ Inv (fxs s) acc X G (fun v => act v && negb (rem v)) Df Mf ->
  (forall v, rem v = true -> G v = crun r (us v) (E v)) ->
  (forall t j, Df t j -> D t j \/ cmust r t j) -> (forall t j, M t j \/ cmay r t j -> Mf t j) ->
  exists s' X' C', exec_items nm (fun _ => false) None s a0 acc q = DOk s' /\ Res O s s' X C X' C' rem /\ Inv (fxs s') (cur s') X' G act Df Mf /\
    forall y t j, In y (cexprs r) -> In (t, j) (reads y) -> rdone a0 (fxs s') n t (Z.of_nat j).
(** Joining an item to those before. *)
Lemma item_join s1 acc X G (act rem1 now : env -> bool) E1 (D1 M1 Df Mf : nat -> nat -> Prop) :
  (acc = unreachableState /\ (forall v, act v = true -> rem1 v = true)) \/ Inv (fxs s1) acc X G (fun v => act v && negb (rem1 v)) Df Mf ->
  Inv (fxs s1) (cur s1) X E1 (fun v => rem1 v && now v) D1 M1 ->
  (forall v, rem1 v = true -> now v = true -> G v = E1 v) -> (forall t j, Df t j -> D1 t j) -> (forall t j, M1 t j -> Mf t j) ->
  exists s2, joinState (with_cur s1 acc) (cur s1) = DOk s2 /\ gle (fxs s1) (fxs s2) /\ Inv (fxs s2) (cur s2) X G (fun v => act v && (negb (rem1 v) || now v)) Df Mf.
Proof.
  intros [[-> Ha]|Ia] I1 Hg Hd Hm.
  - unfold joinState. cbn [with_cur cur areach unreachableState]. rewrite (v_reach _ _ _ _ _ _ _ I1). cbn [Bool.eqb negb].
    eexists. split; [reflexivity|]. cbn [with_cur cur fxs]. split; [apply gle_refl|]. eapply Inv_weak; [exact I1| | |auto|auto].
    + intros v Q. apply andb_true_iff in Q. destruct Q as [Q1 Q2]. rewrite (Ha v Q1) in *. exact Q2.
    + intros v Q. apply andb_true_iff in Q. destruct Q as [Q1 Q2]. rewrite (Ha v Q1) in Q2. cbn in Q2. apply Hg; auto.
  - destruct (join_ok W (with_cur s1 acc) (cur s1) aligned (v_ok _ _ _ _ _ _ _ Ia) (v_ok _ _ _ _ _ _ _ I1) (v_reach _ _ _ _ _ _ _ Ia) (v_reach _ _ _ _ _ _ _ I1)) as (s2 & E2 & O2 & R2 & G2 & H2).
    cbn [with_cur fxs cur] in *. exists s2. split; [exact E2|]. split; [exact G2|].
    eapply (Inv_join (fxs s1) (fxs s2) acc (cur s1)); [exact Ia|exact I1|now apply gle_next|exact O2|exact R2|exact H2| | |].
    + intros v Q. apply andb_true_iff in Q. destruct Q as [Q1 Q2]. rewrite Q1. destruct (rem1 v) eqn:R; cbn in *; [right|left; auto]. rewrite Q2. auto.
    + auto.
    + intros t j [Q|Q]; auto.
Qed.
Lemma items_default s a0 acc p : exec_items nm (fun _ => false) None s a0 acc (CDefault p) = (do s1 <- exec (with_cur s a0) p; joinState (with_cur s1 acc) (cur s1)).
Proof. reflexivity. Qed.
Lemma items_cons s a0 acc c p r : exec_items nm (fun _ => false) None s a0 acc (CCons c p r) =
  (do s1 <- M_DFA.each (noteReference nm (fun _ => false) None None) (with_cur s a0) c; do s2 <- exec s1 p; do s3 <- joinState (with_cur s2 acc) (cur s2);
   exec_items nm (fun _ => false) None s3 a0 (cur s3) r).
Proof. reflexivity. Qed.
Lemma single_block : forall p, single p -> goal_of p.
Proof.
  induction p as [|bl l r|p IHp q IHq|c t IHt|c t IHt e IHe|c its IHi|p IHp|xs p IHp r IHr] using pst_mind with (P0 := goal_items).
  1-6: intros Sg s X C E act D M O q' Ok Rd Eq It L0 Fr Ba Iv Ct.
  1-5: cbn [M_Proc.proc_stmt] in Eq.
  - injection Eq as <-. exists s, X, C. split; [reflexivity|]. split.
    + split; [apply gle_refl|]. split; [apply ext_refl|]. split; [exact Fr|]. split; [exact Ba|]. intros n v t j x Ln Q. rewrite (proj2 (Fr n v Ln)) in Q. discriminate.
    + eapply Inv_weak; [exact Iv| | | |]; cbn; tauto.
  - exact (asg_block bl l r q' s X C E act D M O Ok Rd Eq It L0 Fr Ba Iv Ct).
  - destruct Sg.
  - destruct (proc_stmt t) as [qt|] eqn:Et; [|discriminate]. cbn in Eq. injection Eq as <-. destruct Ok as [Oc Ot]. destruct Rd as [Rc Rt]. destruct It as [It1 It2]. cbn in It1, It2.
    destruct (enter_block c s X C E act D M O Oc Rc) as (s1 & C1 & E1 & G1 & L1 & X1 & F1 & B1 & I1 & A1 & Cv); auto; [intros t0 b0 I; apply It2, in_or_app; now left|].
    set (tr := fun v => istrue (eval vz (E v) c)). set (n := fnext (fxs s)) in *.
    assert (It' : in_trace qt) by (split; [exact It1|intros t0 b0 I; apply It2, in_or_app; now right]).
    destruct (IHt Sg s1 X C1 E (fun v => act v && tr v) D M O qt Ot Rt Et It') as (s2 & X2 & C2 & E2 & (G2 & Ex2 & F2 & B2 & N2) & I2); auto; [lia| | |].
    { eapply Inv_weak; [exact I1| | | |]; auto. intros v Q. now apply andb_true_iff in Q. }
    { right. exists n, (fun o => match o with Some b => b =? 1 | None => false end). split; [exact A1|]. split; [lia|]. intros v. rewrite Cv. fold (tr v). destruct (act v), (tr v); reflexivity. }
    assert (I1' : Inv (fxs s2) (cur s1) X2 E (fun v => act v && negb (tr v)) D M).
    { apply (Inv_frame (fxs s1) (fxs s2) (cur s1) X C1 X2 C2); auto; [eapply Inv_weak; [exact I1| | | |]; auto; intros v Q; now apply andb_true_iff in Q|now apply gle_next|].
      intros k v t0 j Lk Q. destruct (X2 k v t0 j) as [x|] eqn:Q2; [|reflexivity]. apply N2 in Q2; [|exact Lk]. destruct (act v), (tr v); discriminate. }
    destruct (join_ok W s2 (cur s1) aligned (v_ok _ _ _ _ _ _ _ I2) (v_ok _ _ _ _ _ _ _ I1') (v_reach _ _ _ _ _ _ _ I2) (v_reach _ _ _ _ _ _ _ I1')) as (s3 & E3 & O3 & R3 & G3 & H3).
    exists s3, X2, C2. cbn [M_DFA.exec]. rewrite E1. cbn [dbind branch_in]. replace (with_cur s1 (cur s1)) with s1 by now destruct s1. rewrite E2. cbn [dbind]. split; [exact E3|]. split.
    + split; [eapply gle_trans; [exact G1|]; eapply gle_trans; eauto|]. split; [eapply ext_trans; [|exact X1|exact Ex2]; lia|].
      split; [eapply Fresh_gle; eauto|]. split; [eapply Ball_gle; eauto|]. intros k v t0 j x Lk Q. destruct (Nat.lt_ge_cases k (fnext (fxs s1))) as [Lk'|Lk'].
      * rewrite (proj1 (Ex2 k Lk')) in Q. rewrite (proj2 (Fr k v Lk)) in Q. discriminate.
      * apply N2 in Q; [|exact Lk']. now apply andb_true_iff in Q.
    + eapply (Inv_join (fxs s2) (fxs s3) (cur s2) (cur s1)); [exact I2|exact I1'|now apply gle_next|exact O3|exact R3|exact H3| | |].
      * intros v Q. cbn. fold (tr v). rewrite Q. destruct (tr v); [left|right]; auto.
      * cbn. tauto.
      * cbn. tauto.
  - destruct (proc_stmt t) as [qt|] eqn:Et; [|discriminate]. destruct (proc_stmt e) as [qe|] eqn:Ee; [|discriminate]. injection Eq as <-. destruct Ok as (Oc & Ot & Oe). destruct Rd as (Rc & Rt & Re). destruct It as [It1 It2]. cbn in It1, It2. destruct Sg as [Sg1 Sg2].
    destruct (enter_block c s X C E act D M O Oc Rc) as (s1 & C1 & E1 & G1 & L1 & X1 & F1 & B1 & I1 & A1 & Cv); auto; [intros t0 b0 I; apply It2, in_or_app; now left|].
    set (tr := fun v => istrue (eval vz (E v) c)). set (n := fnext (fxs s)) in *.
    assert (It' : in_trace qt) by (split; [intros x I; apply It1, in_or_app; now left|intros t0 b0 I; apply It2, in_or_app; right; apply in_or_app; now left]).
    assert (It'' : in_trace qe) by (split; [intros x I; apply It1, in_or_app; now right|intros t0 b0 I; apply It2, in_or_app; right; apply in_or_app; now right]).
    destruct (IHt Sg1 s1 X C1 E (fun v => act v && tr v) D M O qt Ot Rt Et It') as (s2 & X2 & C2 & E2 & (G2 & Ex2 & F2 & B2 & N2) & I2); auto; [lia| | |].
    { eapply Inv_weak; [exact I1| | | |]; auto. intros v Q. now apply andb_true_iff in Q. }
    { right. exists n, (fun o => match o with Some b => b =? 1 | None => false end). split; [exact A1|]. split; [lia|]. intros v. rewrite Cv. fold (tr v). destruct (act v), (tr v); reflexivity. }
    assert (I1' : Inv (fxs s2) (cur s1) X2 E (fun v => act v && negb (tr v)) D M).
    { apply (Inv_frame (fxs s1) (fxs s2) (cur s1) X C1 X2 C2); auto; [eapply Inv_weak; [exact I1| | | |]; auto; intros v Q; now apply andb_true_iff in Q|now apply gle_next|].
      intros k v t0 j Lk Q. destruct (X2 k v t0 j) as [x|] eqn:Q2; [|reflexivity]. apply N2 in Q2; [|exact Lk]. destruct (act v), (tr v); discriminate. }
    pose proof (gle_next _ _ G2) as Le2.
    destruct (IHe Sg2 (with_cur s2 (cur s1)) X2 C2 E (fun v => act v && negb (tr v)) D M O qe Oe Re Ee It'') as (s3 & X3 & C3 & E3 & (G3 & Ex3 & F3 & B3 & N3) & I3); auto; cbn [with_cur fxs cur] in *; [lia| |].
    { right. exists n, (fun o => match o with Some b => b =? 0 | None => false end). split; [exact A1|]. split; [lia|]. intros v. rewrite (proj2 (Ex2 n ltac:(lia))), Cv. fold (tr v). destruct (act v), (tr v); reflexivity. }
    assert (I2' : Inv (fxs s3) (cur s2) X3 (fun v => prun t (E v)) (fun v => act v && tr v) (fun t0 j => D t0 j \/ must t t0 j) (fun t0 j => M t0 j \/ may t t0 j)).
    { apply (Inv_frame (fxs s2) (fxs s3) (cur s2) X2 C2 X3 C3); auto; [now apply gle_next|].
      intros k v t0 j Lk Q. destruct (X3 k v t0 j) as [x|] eqn:Q2; [|reflexivity]. apply N3 in Q2; [|exact Lk]. destruct (act v), (tr v); discriminate. }
    destruct (join_ok W s3 (cur s2) aligned (v_ok _ _ _ _ _ _ _ I3) (v_ok _ _ _ _ _ _ _ I2') (v_reach _ _ _ _ _ _ _ I3) (v_reach _ _ _ _ _ _ _ I2')) as (s4 & E4 & O4 & R4 & G4 & H4).
    exists s4, X3, C3. cbn [M_DFA.exec]. rewrite E1. cbn [dbind branch_in]. replace (with_cur s1 (cur s1)) with s1 by now destruct s1. rewrite E2. cbn [dbind]. rewrite E3. cbn [dbind]. split; [exact E4|]. split.
    + split; [eapply gle_trans; [exact G1|]; eapply gle_trans; [exact G2|]; eapply gle_trans; eauto|].
      split; [eapply ext_trans; [|exact X1|eapply ext_trans; [|exact Ex2|exact Ex3]]; lia|].
      split; [eapply Fresh_gle; eauto|]. split; [eapply Ball_gle; eauto|]. intros k v t0 j x Lk Q. destruct (Nat.lt_ge_cases k (fnext (fxs s2))) as [Lk'|Lk'].
      * rewrite (proj1 (Ex3 k Lk')) in Q. destruct (Nat.lt_ge_cases k (fnext (fxs s1))) as [Lk2|Lk2].
        -- rewrite (proj1 (Ex2 k Lk2)) in Q. rewrite (proj2 (Fr k v Lk)) in Q. discriminate.
        -- apply N2 in Q; [|exact Lk2]. now apply andb_true_iff in Q.
      * apply N3 in Q; [|exact Lk']. now apply andb_true_iff in Q.
    + eapply (Inv_join (fxs s3) (fxs s4) (cur s3) (cur s2)); [exact I3|exact I2'|now apply gle_next|exact O4|exact R4|exact H4| | |].
      * intros v Q. cbn. fold (tr v). rewrite Q. destruct (tr v); [right|left]; auto.
      * cbn. tauto.
      * cbn. tauto.
  - rewrite proc_case in Eq. destruct (proc_items its) as [qi|] eqn:Ei; [|discriminate]. cbn in Eq. injection Eq as <-. destruct Ok as [Oc Oi]. destruct Rd as [Rc Ri]. destruct It as [It1 It2]. cbn in It1, It2.
    set (ch := fun v => cpick its (eval vz (E v) c) (E v) 0).
    assert (One : forall y, In y [c] -> y = c) by (intros y [->|[]]; reflexivity).
    destruct (enter_gen (KCase 0) [c] ch s X C E act D M O) as (s1 & C1 & E1 & G1 & L1 & X1 & F1 & B1 & I1 & An & Ac & Ce & Hs & Cv & R1); auto.
    { intros y Iy. now rewrite (One y Iy). } { cbn [flat_map]. rewrite app_nil_r. intros t0 b0 I. apply It2, in_or_app. now left. }
    cbn [flat_map] in E1. rewrite app_nil_r in E1. set (n := fnext (fxs s)) in *.
    destruct (IHi Sg s1 (cur s1) unreachableState n 0 X C1 E (fun v => prun (PCase c its) (E v)) act act D M
      (fun t j => D t j \/ cmust its t j) (fun t j => M t j \/ cmay its t j) (fun k => O k \/ k = n) (fun v => eval vz (E v) c) qi)
      as (s2 & X2 & C2 & E2 & (G2 & Ex2 & F2 & B2 & N2) & I2 & R2); auto.
    { split; [exact It1|intros t0 b0 I; apply It2, in_or_app; now right]. }
    { intros v A. now rewrite Cv, A. } { intros v i A Q. rewrite Cv, A in Q. discriminate. }
    exists s2, X2, C2. cbn [M_DFA.exec]. unfold enter_case.
    replace (let '(s0, n0) := create s (KCase 0) in M_DFA.each (noteReference nm (fun _ => false) None None) (updateNode s0 n0 true) (refs c)) with (DOk s1) by (rewrite <- E1; reflexivity).
    cbn [dbind]. split; [exact E2|]. split; [|exact I2].
    assert (Xn : forall v t j, X2 n v t j = None) by (intros v t j; rewrite (proj1 (Ex2 n L1)); now apply Fr).
    split; [eapply gle_trans; eauto|]. split; [eapply ext_trans; [|exact X1|exact Ex2]; lia|]. split; [exact F2|]. split.
    + apply (open_close O n); [exact B2|]. apply (close_node (c :: cexprs its) ch s (fxs s2) X C X2 C2 E act D M); auto.
      * eapply ctl_gle; eauto.
      * intros y [<-|I]; [exact Oc|]. clear -Oi I. revert Oi I. revert its. fix IH 1. intros [p|xs p r]; [intros _ []|]. cbn. intros (A & _ & B) I. apply in_app_or in I. destruct I as [I|I]; [auto|now apply (IH r)].
      * intros y [<-|I]; [exact Rc|]. clear -Ri I. revert Ri I. revert its. fix IH 1. intros [p|xs p r]; [intros _ []|]. cbn. intros (A & _ & B) I. apply in_app_or in I. destruct I as [I|I]; [auto|now apply (IH r)].
      * intros y t j [<-|I] J; [eapply rdone_gle; [exact G2|]; apply (R1 c); [now left|exact J]|]. eapply rdone_same; [apply Hs|]. now apply (R2 y).
      * intros v1 v2 H. unfold ch. rewrite (H c (or_introl eq_refl)). apply cpick_eq. intros y I. apply H. now right.
      * eapply ext_trans; [|exact X1|exact Ex2]; lia.
      * intros v. fold n. rewrite (proj2 (Ex2 n L1)). apply Cv.
    + intros k v t j x Lk Q. destruct (Nat.lt_ge_cases k (fnext (fxs s1))) as [Lk'|Lk'].
      * rewrite (proj1 (Ex2 k Lk')) in Q. rewrite (proj2 (Fr k v Lk)) in Q. discriminate.
      * now apply N2 in Q.
  - intros Sg s a0 acc n j X C E G act rem D M Df Mf O us q' Ok Rd Eq It L0 Fr Ba Iv An Ac Ra Cr Cn Hacc Hg Hd Hm. rewrite proc_default in Eq.
    destruct (proc_stmt p) as [qp|] eqn:Ep; [|discriminate]. cbn in Eq. injection Eq as <-.
    destruct (IHp Sg (with_cur s a0) X C E rem D M O qp Ok Rd Ep It) as (s1 & X1 & C1 & E1 & (G1 & Ex1 & F1 & B1 & N1) & I1); auto; cbn [with_cur fxs cur] in *; [lia| |].
    { right. exists n, (fun o => match o with Some i => i =? j | None => false end). split; [exact Ac|]. split; [exact L0|]. intros v. destruct (rem v) eqn:R.
      - rewrite (Cr v R). cbn. now rewrite Nat.eqb_refl.
      - destruct (C n v) as [i|] eqn:Q; [|reflexivity]. specialize (Cn v i R Q). symmetry. apply Nat.eqb_neq. lia. }
    destruct (item_join s1 acc X1 G act rem (fun _ => true) (fun v => prun p (E v)) (fun t j => D t j \/ must p t j) (fun t j => M t j \/ may p t j) Df Mf) as (s2 & E2 & G2 & I2); auto.
    { destruct Hacc as [H|H]; [now left|right]. apply (Inv_frame (fxs s) (fxs s1) acc X C X1 C1); auto; [now apply gle_next|].
      intros k v t0 j0 Lk Q. destruct (X1 k v t0 j0) as [x|] eqn:Q2; [|reflexivity]. apply N1 in Q2; [|exact Lk]. rewrite Q2 in Q. rewrite andb_false_r in Q. discriminate. }
    { eapply Inv_weak; [exact I1| | | |]; auto. intros v Q. now apply andb_true_iff in Q. }
    { intros v R _. apply (Hg v R). }
    exists s2, X1, C1. rewrite items_default, E1. cbn [dbind]. split; [exact E2|]. split; [|split].
    + split; [eapply gle_trans; eauto|]. split; [exact Ex1|]. split; [eapply Fresh_gle; eauto|]. split; [eapply Ball_gle; eauto|]. exact N1.
    + eapply Inv_weak; [exact I2| | | |]; auto. intros v Q. cbv beta. now rewrite Q, orb_true_r.
    + intros y t j0 [].
  - intros [Sg1 Sg2] s a0 acc n j X C E G act rem D M Df Mf O us q' Ok Rd Eq It L0 Fr Ba Iv An Ac Ra Cr Cn Hacc Hg Hd Hm.
    rewrite proc_item in Eq.
    destruct (proc_stmt p) as [qp|] eqn:Ep; [|discriminate]. destruct (proc_items r) as [qr|] eqn:Er; [|discriminate]. injection Eq as <-.
    destruct Ok as (Ox & Op & Or). destruct Rd as (Rx & Rp & Rr). destruct It as [It1 It2]. cbn in It1, It2. cbn [cpick S_Proc.crun] in Cr, Hg.
    pose proof Iv as Iv0. destruct Iv0 as [V1 V2 _ _ _].
    destruct (read_many n xs (with_cur s a0)) as (s1 & E1 & C1 & G1 & R1); auto; [intros t b I; apply It2, in_or_app; now left|]. cbn [with_cur fxs cur] in C1, G1, R1.
    pose proof (gle_next _ _ G1) as Le1. set (ht := fun v => hit xs (us v) (E v)).
    assert (Iv1 : forall act', (forall v, act' v = true -> rem v = true) -> Inv (fxs s1) a0 X E act' D M).
    { intros act' Ha. apply (Inv_frame (fxs s) (fxs s1) a0 X C X C); auto; [eapply Inv_weak; [exact Iv| | | |]; auto|apply ext_refl|intros k v t0 j0 Lk _; now apply Fr]. }
    destruct (IHp Sg1 s1 X C E (fun v => rem v && ht v) D M O qp Op Rp Ep) as (s2 & X2 & C2 & E2 & (G2 & Ex2 & F2 & B2 & N2) & I2).
    { split; [intros x I; apply It1, in_or_app; now left|intros t b I; apply It2, in_or_app; right; apply in_or_app; now left]. }
    { lia. } { eapply Fresh_gle; eauto. } { eapply Ball_gle; eauto. } { rewrite C1. apply Iv1. intros v Q. now apply andb_true_iff in Q. }
    { right. exists n, (fun o => match o with Some i => i =? j | None => false end). rewrite C1. split; [exact Ac|]. split; [lia|]. intros v. destruct (rem v) eqn:R.
      - rewrite (Cr v R). fold (ht v). destruct (ht v); [now rewrite Nat.eqb_refl|]. symmetry. apply Nat.eqb_neq.
        assert (Lp : forall x u e k, k <= cpick x u e k) by (clear; fix IH 1; intros [p|xs p r] u e k; cbn; [lia|]; destruct (hit xs u e); [lia|]; specialize (IH r u e (S k)); lia).
        specialize (Lp r (us v) (E v) (S j)). lia.
      - destruct (C n v) as [i|] eqn:Q; [|reflexivity]. specialize (Cn v i R Q). symmetry. apply Nat.eqb_neq. lia. }
    pose proof (gle_next _ _ G2) as Le2.
    assert (Ex02 : ext (fnext (fxs s)) X C X2 C2) by (intros k Lk; apply Ex2; lia).
    assert (New2 : forall k v t0 j0, fnext (fxs s) <= k -> rem v && ht v = false -> X2 k v t0 j0 = None).
    { intros k v t0 j0 Lk Q. destruct (X2 k v t0 j0) as [x|] eqn:Q2; [|reflexivity]. exfalso. destruct (Nat.lt_ge_cases k (fnext (fxs s1))) as [Lk'|Lk'].
      - rewrite (proj1 (Ex2 k Lk')) in Q2. rewrite (proj2 (Fr k v Lk)) in Q2. discriminate.
      - apply N2 in Q2; [|exact Lk']. rewrite Q2 in Q. discriminate. }
    destruct (item_join s2 acc X2 G act rem ht (fun v => prun p (E v)) (fun t j => D t j \/ must p t j) (fun t j => M t j \/ may p t j) Df Mf) as (s3 & E3 & G3 & I3); auto.
    { destruct Hacc as [H|H]; [now left|right]. apply (Inv_frame (fxs s) (fxs s2) acc X C X2 C2); auto; [lia|].
      intros k v t0 j0 Lk Q. apply New2; [exact Lk|]. apply andb_true_iff in Q. destruct Q as [_ Q]. apply negb_true_iff in Q. now rewrite Q. }
    { intros v R T. rewrite (Hg v R). unfold ht, hit in T. now rewrite T. }
    { intros t0 j0 Q. destruct (Hd t0 j0 Q) as [Q'|[Q' _]]; auto. }
    { intros t0 j0 [Q|Q]; apply Hm; [now left|right; now left]. }
    pose proof (gle_next _ _ G3) as Le3.
    destruct (IHr Sg2 s3 a0 (cur s3) n (S j) X2 C2 E G act (fun v => rem v && negb (ht v)) D M Df Mf O us qr) as (s4 & X4 & C4 & E4 & (G4 & Ex4 & F4 & B4 & N4) & I4 & R4); auto.
    { split; [intros x I; apply It1, in_or_app; now right|intros t b I; apply It2, in_or_app; right; apply in_or_app; now right]. }
    { lia. } { eapply Fresh_gle; eauto. } { eapply Ball_gle; eauto. }
    { apply (Inv_frame (fxs s) (fxs s3) a0 X C X2 C2); auto; [eapply Inv_weak; [exact Iv| | | |]; auto; intros v Q; now apply andb_true_iff in Q|lia|].
      intros k v t0 j0 Lk Q. apply New2; [exact Lk|]. destruct (rem v), (ht v); auto; discriminate. }
    { intros v Q. apply andb_true_iff in Q. apply Ra, Q. }
    { intros v Q. apply andb_true_iff in Q. destruct Q as [Q1 Q2]. apply negb_true_iff in Q2. rewrite (proj2 (Ex02 n (proj2 L0))), (Cr v Q1). fold (ht v). now rewrite Q2. }
    { intros v i Q Q2. rewrite (proj2 (Ex02 n (proj2 L0))) in Q2. destruct (rem v) eqn:R; [|specialize (Cn v i R Q2); lia]. rewrite (Cr v R) in Q2. fold (ht v) in Q2.
      cbn in Q. apply negb_false_iff in Q. rewrite Q in Q2. injection Q2 as <-. lia. }
    { right. eapply Inv_weak; [exact I3| | | |]; auto. intros v. cbv beta. destruct (act v), (rem v), (ht v); auto. }
    { intros v Q. apply andb_true_iff in Q. destruct Q as [Q1 Q2]. apply negb_true_iff in Q2. rewrite (Hg v Q1). unfold ht, hit in Q2. now rewrite Q2. }
    { intros t0 j0 Q. destruct (Hd t0 j0 Q) as [Q'|[_ Q']]; auto. }
    { intros t0 j0 [Q|Q]; apply Hm; [now left|right; now right]. }
    exists s4, X4, C4. rewrite items_cons, E1. cbn [dbind]. rewrite E2. cbn [dbind]. rewrite E3. cbn [dbind]. split; [exact E4|]. split; [|split; [exact I4|]].
    + split; [eapply gle_trans; [exact G1|]; eapply gle_trans; [exact G2|]; eapply gle_trans; eauto|].
      split; [eapply ext_trans; [|exact Ex02|exact Ex4]; lia|]. split; [exact F4|]. split; [exact B4|].
      intros k v t0 j0 x Lk Q. destruct (Nat.lt_ge_cases k (fnext (fxs s3))) as [Lk'|Lk'].
      * rewrite (proj1 (Ex4 k Lk')) in Q. destruct (rem v) eqn:R; [reflexivity|]. rewrite New2 in Q; [discriminate|exact Lk|now rewrite R].
      * apply N4 in Q; [|exact Lk']. now apply andb_true_iff in Q.
    + intros y t0 j0 I J. cbn in I. apply in_app_or in I. destruct I as [I|I]; [|now apply (R4 y)].
      eapply rdone_gle; [|apply (R1 y); eauto]. eapply gle_trans; [exact G2|]. eapply gle_trans; eauto.
Qed.

Definition always : env -> bool := fun _ => true.
Lemma top_block : forall p, top p -> forall s X C E (D M : nat -> nat -> Prop) O q, stmt_ok p -> reads_ok D M p -> proc_stmt p = Some q -> in_trace q ->
  N0 <= fnext (fxs s) -> Fresh (fxs s) X C -> BallO O (fxs s) X C -> Inv (fxs s) (cur s) X E always D M ->
  exists s' X' C', exec s q = DOk s' /\ Res O s s' X C X' C' always /\
    Inv (fxs s') (cur s') X' (fun v => prun p (E v)) always (fun t j => D t j \/ must p t j) (fun t j => M t j \/ may p t j).
Proof.
  induction p as [|bl l r|p IHp q IHq|c t IHt|c t IHt e IHe|c its]; intros Sg s X C E D M O q' Ok Rd Eq It L0 Fr Ba Iv;
    try (apply (single_block _ Sg); auto; left; reflexivity).
  cbn [M_Proc.proc_stmt] in Eq. destruct (proc_stmt p) as [q1|] eqn:E1; [|discriminate]. destruct (proc_stmt q) as [q2|] eqn:E2; [|discriminate]. injection Eq as <-.
  destruct Ok as [Op Oq]. destruct Rd as [Rp Rq]. destruct Sg as [S1 S2]. apply read_app in It. destruct It as [It1 It2].
  destruct (IHp S1 s X C E D M O q1) as (s1 & X1 & C1 & Ex1 & (G1 & Xe1 & F1 & B1 & N1) & I1); auto. pose proof (gle_next _ _ G1) as Le1.
  destruct (IHq S2 s1 X1 C1 (fun v => prun p (E v)) _ _ O q2 Oq Rq eq_refl It2) as (s2 & X2 & C2 & Ex2 & (G2 & Xe2 & F2 & B2 & N2) & I2); auto; [lia|].
  exists s2, X2, C2. cbn [M_DFA.exec]. rewrite Ex1. cbn [dbind]. split; [exact Ex2|]. split.
  - split; [eapply gle_trans; eauto|]. split; [eapply ext_trans; eauto|]. split; [exact F2|]. split; [exact B2|]. reflexivity.
  - eapply Inv_weak; [exact I2| | | |]; cbn; auto; tauto.
Qed.
End Block.
