(** Proofs for C119: two graphs with the same view; what follows out-edges. *)
From Coq Require Import Ascii String.
From Verif Require Import Base M_Graph M_Range M_Netlist M_DFS M_Path M_Query M_Cycle M_Text M_Serial M_Dot M_Report M_Cli
  S_Graph S_Reach S_Netlist S_Serial P_Serial2.
Notation length := List.length.

Inductive orel {A B} (P : A -> B -> Prop) : option A -> option B -> Prop :=
| or_some a b : P a b -> orel P (Some a) (Some b)
| or_none : orel P None None.

Lemma Forall2_impl {A B} (P Q : A -> B -> Prop) l l' : (forall a b, P a b -> Q a b) -> Forall2 P l l' -> Forall2 Q l l'.
Proof. intros H. induction 1; constructor; auto. Qed.
Lemma map_eq_rel {A B C} (f : A -> C) (f' : B -> C) l : forall l', map f l = map f' l' ->
  Forall2 (fun a b => In a l /\ In b l' /\ f a = f' b) l l'.
Proof.
  induction l as [|a l IH]; intros [|b l'] E; try discriminate; [constructor|]. cbn in E. injection E as E1 E2. constructor.
  - cbn. auto.
  - eapply Forall2_impl; [|exact (IH _ E2)]. cbn. tauto.
Qed.
Lemma forall2_in_l {A B} (P : A -> B -> Prop) l l' a : Forall2 P l l' -> In a l -> exists b, In b l' /\ P a b.
Proof. induction 1; intros []; subst; [eexists; split; [left|]; eauto|]. destruct IHForall2 as (b & I & Q); auto. exists b. cbn. auto. Qed.
Lemma forall2_in_r {A B} (P : A -> B -> Prop) l l' b : Forall2 P l l' -> In b l' -> exists a, In a l /\ P a b.
Proof. induction 1; intros []; subst; [eexists; split; [left|]; eauto|]. destruct IHForall2 as (c & I & Q); auto. exists c. cbn. auto. Qed.
Lemma forall2_app {A B} (P : A -> B -> Prop) a a' b b' : Forall2 P a a' -> Forall2 P b b' -> Forall2 P (a ++ b) (a' ++ b').
Proof. intros H K. now apply Forall2_app. Qed.
Lemma forall2_len {A B} (P : A -> B -> Prop) l l' : Forall2 P l l' -> length l = length l'.
Proof. induction 1; cbn; congruence. Qed.
Lemma forall2_filter {A B} (P : A -> B -> Prop) f f' l l' : Forall2 P l l' -> (forall a b, P a b -> f a = f' b) -> Forall2 P (filter f l) (filter f' l').
Proof. intros F H. induction F as [|a b l l' K F IH]; cbn; [constructor|]. rewrite (H _ _ K). destruct (f' b); [constructor|]; assumption. Qed.
Lemma forall2_map_eq {A B C} (P : A -> B -> Prop) (f : A -> C) (f' : B -> C) l l' : Forall2 P l l' -> (forall a b, P a b -> f a = f' b) -> map f l = map f' l'.
Proof. intros F H. induction F; cbn; f_equal; auto. Qed.
Lemma forall2_rev {A B} (P : A -> B -> Prop) l l' : Forall2 P l l' -> Forall2 P (rev l) (rev l').
Proof. induction 1; cbn; [constructor|]. apply Forall2_app; auto. Qed.
Lemma forall2_hd {A B} (P : A -> B -> Prop) l l' : Forall2 P l l' -> orel P (hd_error l) (hd_error l').
Proof. destruct 1; cbn; constructor; auto. Qed.
Lemma ctraverse_rel {A B C} (P : A -> B -> Prop) (f : A -> cres C) (f' : B -> cres C) l l' : Forall2 P l l' -> (forall a b, P a b -> f a = f' b) ->
  ctraverse f l = ctraverse f' l'.
Proof. intros F H. induction F as [|a b l l' K F IH]; cbn; [reflexivity|]. now rewrite (H _ _ K), IH. Qed.

(** * Searches over related successor lists *)
Section Search.
Variable R : nat -> nat -> Prop.
Variable E : edge -> edge -> Prop.
Hypothesis Req : forall a a' b b', R a a' -> R b b' -> Nat.eqb a b = Nat.eqb a' b'.
Lemma mem_rel n n' l l' : R n n' -> Forall2 R l l' -> mem n l = mem n' l'.
Proof. intros H F. unfold mem. induction F as [|a b l l' K F IH]; cbn; [reflexivity|]. now rewrite (Req _ _ _ _ H K), IH. Qed.

Inductive EvR : event -> event -> Prop :=
| er_node n n' : R n n' -> EvR (ENode n) (ENode n')
| er_edge e e' : E e e' -> EvR (EEdge e) (EEdge e')
| er_vis n n' : R n n' -> EvR (EVisited n) (EVisited n')
| er_pop : EvR EPop EPop.

Variables succs succs' : nat -> list edge.
Variables nxt nxt' : edge -> nat.
Variables pred pred' : edge -> bool.
Hypothesis Hs : forall n n', R n n' -> Forall2 E (succs n) (succs' n').
Hypothesis Hn : forall e e', E e e' -> R (nxt e) (nxt' e').
Hypothesis Hp : forall e e', E e e' -> pred e = pred' e'.
Definition Frame (x y : nat * list edge) : Prop := R (fst x) (fst y) /\ Forall2 E (snd x) (snd y).
Definition StR (s s' : dstate) : Prop := Forall2 R (fst s) (fst s') /\ Forall2 Frame (snd s) (snd s').

Lemma step_rel s s' : StR s s' ->
  orel (fun x y => StR (fst x) (fst y) /\ Forall2 EvR (snd x) (snd y)) (dfs_step succs nxt pred s) (dfs_step succs' nxt' pred' s').
Proof.
  destruct s as [vis stk], s' as [vis' stk']. intros [Fv Fs]. cbn in Fv, Fs. destruct Fs as [|[n l] [n' l'] r r' [Kn Kl] Fs]; cbn; [constructor|].
  cbn in Kn, Kl. destruct Kl as [|e e' l l' Ke Kl].
  - constructor. cbn. split; [split; auto|repeat constructor].
  - rewrite <- (Hp _ _ Ke). destruct (pred e); cbn; [|constructor; cbn; split; [split; [auto|constructor; [split|]; auto]|constructor]].
    rewrite (mem_rel _ _ _ _ (Hn _ _ Ke) Fv). destruct (mem (nxt' e') vis').
    + constructor. cbn. split; [split; [auto|constructor; [split|]; auto]|repeat constructor; auto].
    + constructor. cbn. split; [|repeat constructor; auto].
      split; cbn; [constructor; auto|]. constructor; [split; cbn; auto|]. constructor; [split; auto|auto].
Qed.
Lemma run_rel fuel : forall s s', StR s s' -> orel (Forall2 EvR) (dfs_run succs nxt pred fuel s) (dfs_run succs' nxt' pred' fuel s').
Proof.
  induction fuel as [|k IH]; intros s s' S; pose proof (step_rel _ _ S) as T; cbn [dfs_run];
    destruct T as [[s1 ev] [s1' ev'] [S1 Ev]|]; try solve [repeat constructor].
  cbn in S1, Ev. destruct (IH _ _ S1) as [tr tr' F|]; cbn; constructor. now apply Forall2_app.
Qed.
Lemma dfs_rel fuel n n' : R n n' -> orel (Forall2 EvR) (dfs succs nxt pred fuel n) (dfs succs' nxt' pred' fuel n').
Proof.
  intros K. unfold dfs. assert (S : StR (dfs_init succs n) (dfs_init succs' n')).
  { split; cbn; [repeat constructor; auto|]. constructor; [split; cbn; auto|constructor]. }
  destruct (run_rel fuel _ _ S); cbn; constructor. constructor; [constructor|]; auto.
Qed.
Lemma fuel_rel V V' : Forall2 R V V' -> dfs_fuel succs V = dfs_fuel succs' V'.
Proof. intros F. unfold dfs_fuel. f_equal. eapply forall2_map_eq; [exact F|]. intros a b K. now rewrite (forall2_len _ _ _ (Hs _ _ K)). Qed.
End Search.

Lemma ev_nodes_rel R E tr tr' : Forall2 (EvR R E) tr tr' -> Forall2 R (ev_nodes tr) (ev_nodes tr').
Proof. induction 1 as [|x y l l' K F IH]; cbn; [constructor|]. destruct K; auto. Qed.

(** * Two graphs with the same view *)
Section Same.
Variable cval : Type.
Variables g g' : nlg cval.
Hypothesis M : Mirror (lg g).
Hypothesis M' : Mirror (lg g').
Hypothesis Vw : view g' = view g.
Notation ns := (gnodes (lg g)).
Notation ns' := (gnodes (lg g')).
Notation nl := (nl_of cval g).
Notation nl' := (nl_of cval g').

(** The nodes at the same position. *)
Definition R (n n' : nat) : Prop := exists i, nth_error ns i = Some n /\ nth_error ns' i = Some n'.
Definition E (e e' : edge) : Prop := R (esrc e) (esrc e') /\ R (etgt e) (etgt e') /\ snd (edge_view g e) = snd (edge_view g' e').

Lemma same_len : length ns = length ns'.
Proof. rewrite <- (map_length (node_view g) ns), <- (map_length (node_view g') ns'). f_equal. symmetry. exact Vw. Qed.
Lemma R_in n n' : R n n' -> In n ns /\ In n' ns'.
Proof. intros (i & A & B). split; eapply nth_error_In; eauto. Qed.
Lemma R_fun a b c : R a b -> R a c -> b = c.
Proof.
  intros (i & A & B) (j & C & D). assert (i = j).
  { apply (proj1 (NoDup_nth_error ns)); [apply (mir_nodes _ M)|apply nth_error_Some; congruence|congruence]. }
  congruence.
Qed.
Lemma R_inj a b c : R a c -> R b c -> a = b.
Proof.
  intros (i & A & B) (j & C & D). assert (i = j).
  { apply (proj1 (NoDup_nth_error ns')); [apply (mir_nodes _ M')|apply nth_error_Some; congruence|congruence]. }
  congruence.
Qed.
Lemma R_eqb a a' b b' : R a a' -> R b b' -> Nat.eqb a b = Nat.eqb a' b'.
Proof.
  intros H K. destruct (Nat.eqb_spec a b) as [->|N]; symmetry.
  - apply Nat.eqb_eq. exact (R_fun _ _ _ H K).
  - apply Nat.eqb_neq. intros ->. apply N. exact (R_inj _ _ _ H K).
Qed.
Lemma R_total n : In n ns -> exists n', R n n'.
Proof.
  intros I. apply In_nth_error in I as [i I]. assert (L : i < length ns') by (rewrite <- same_len; apply nth_error_Some; congruence).
  apply nth_error_Some in L. destruct (nth_error ns' i) as [n'|] eqn:X; [|congruence]. exists n', i. auto.
Qed.
Lemma R_total' n' : In n' ns' -> exists n, R n n'.
Proof.
  intros I. apply In_nth_error in I as [i I]. assert (L : i < length ns) by (rewrite same_len; apply nth_error_Some; congruence).
  apply nth_error_Some in L. destruct (nth_error ns i) as [n|] eqn:X; [|congruence]. exists n, i. auto.
Qed.
Lemma R_nodes : Forall2 R ns ns'.
Proof.
  assert (H : forall k l l', length l = length l' -> (forall i, nth_error l i = nth_error ns (k + i)) -> (forall i, nth_error l' i = nth_error ns' (k + i)) -> Forall2 R l l').
  { intros k l. revert k. induction l as [|a l IH]; intros k [|b l'] L A B; try discriminate; [constructor|]. constructor.
    - exists k. rewrite <- (Nat.add_0_r k), <- A, <- B. cbn. auto.
    - apply (IH (S k)); [cbn in L; congruence| |]; intros i.
      + generalize (A (S i)). cbn [nth_error]. intros ->. f_equal. apply Nat.add_succ_r.
      + generalize (B (S i)). cbn [nth_error]. intros ->. f_equal. apply Nat.add_succ_r. }
  apply (H 0); [exact same_len| |]; reflexivity.
Qed.
Lemma R_view n n' : R n n' -> node_view g n = node_view g' n'.
Proof.
  intros (i & A & B). apply (map_nth_error (node_view g)) in A. apply (map_nth_error (node_view g')) in B.
  unfold view in Vw. rewrite Vw in B. congruence.
Qed.
Lemma R_data n n' : R n n' -> lnode g n = lnode g' n'.
Proof. intros H. apply R_view in H. unfold node_view in H. congruence. Qed.
Lemma index_R n n' : In n ns -> In n' ns' -> index_of n ns = index_of n' ns' -> R n n'.
Proof.
  intros A B X. destruct (index_of_nth _ _ A) as [C D]. destruct (index_of_nth _ _ B) as [F G]. exists (index_of n ns). split.
  - rewrite <- C at 2. apply nth_error_nth'. exact D.
  - rewrite X. rewrite <- F at 2. apply nth_error_nth'. exact G.
Qed.
Lemma R_outs n n' : R n n' -> Forall2 E (nouts nl n) (nouts nl' n').
Proof.
  intros H. pose proof (R_view _ _ H) as V. unfold node_view in V. injection V as _ V. apply map_eq_rel in V.
  eapply Forall2_impl; [|exact V]. cbn. intros e e' (I & I' & X). destruct (mir_out _ M _ _ I) as (S1 & _ & T1 & _). destruct (mir_out _ M' _ _ I') as (S2 & _ & T2 & _).
  split; [now rewrite S1, S2|]. split; [|congruence]. apply index_R; auto. unfold edge_view in X. congruence.
Qed.
Lemma E_att e e' : E e e' -> eatt nl (eid e) = eatt nl' (eid e').
Proof.
  intros (_ & _ & X). cbn in X |- *. injection X as K S B D. rewrite K, B, D. f_equal. unfold sym_at in S.
  destruct (dsym (ledge g (eid e))), (dsym (ledge g' (eid e'))); try rewrite S; auto; try (rewrite <- S; reflexivity).
Qed.
Lemma E_dis e e' : E e e' -> edisabled nl e = edisabled nl' e'.
Proof. intros H. unfold edisabled. now rewrite (E_att _ _ H). Qed.
Lemma R_state n n' : R n n' -> isState nl n = isState nl' n'.
Proof. intros H. unfold isState, nlkind. cbn. now rewrite (R_data _ _ H). Qed.
Lemma R_path n n' : R n n' -> path_of cval g n = path_of cval g' n'.
Proof. intros H. unfold path_of. now rewrite (R_data _ _ H). Qed.

Lemma fwd_rel p p' n n' : (forall e e', E e e' -> p e = p' e') -> R n n' -> orel (Forall2 (EvR R E)) (dfs_fwd nl p n) (dfs_fwd nl' p' n').
Proof.
  intros Hp H. unfold dfs_fwd. change (gnodes (ng nl)) with ns. change (gnodes (ng nl')) with ns'. rewrite (fuel_rel R E (nouts nl) (nouts nl') R_outs ns ns' R_nodes).
  apply dfs_rel; auto; [exact R_eqb|exact R_outs|]. intros e e' (_ & T & _). exact T.
Qed.
Lemma comb_rel e e' : E e e' -> pred_comb nl e = pred_comb nl' e'.
Proof. intros H. unfold pred_comb. rewrite (E_dis _ _ H). destruct H as (_ & T & _). now rewrite (R_state _ _ T). Qed.
Lemma enabled_rel e e' : E e e' -> pred_enabled nl e = pred_enabled nl' e'.
Proof. intros H. unfold pred_enabled. now rewrite (E_dis _ _ H). Qed.
Lemma fanOut_rel n n' : R n n' -> orel (Forall2 R) (getCombFanOut nl n) (getCombFanOut nl' n').
Proof. intros H. unfold getCombFanOut. destruct (fwd_rel _ _ n n' comb_rel H); cbn; constructor. eapply ev_nodes_rel; eauto. Qed.

(** * The index *)
Lemma index_rel : Forall2 (fun x y => fst x = fst y /\ R (snd x) (snd y)) (the_index cval g) (the_index cval g').
Proof.
  unfold the_index, mk_index. cbn [ng nl_of ninf]. pose proof R_nodes as F. induction F as [|a b l l' K F IH]; cbn; [constructor|].
  rewrite (R_data _ _ K). destruct (data_path cval (lnode g' b)); cbn; [constructor; [cbn; auto|]|]; exact IH.
Qed.
Lemma get_rel x : Forall2 R (idx_get (the_index cval g) x) (idx_get (the_index cval g') x).
Proof.
  unfold idx_get. assert (F := forall2_filter _ (fun p : str * nat => str_eqb (fst p) x) (fun p : str * nat => str_eqb (fst p) x) _ _ index_rel).
  specialize (F ltac:(intros a b [-> _]; reflexivity)). induction F as [|a b l l' [_ K] F IH]; cbn; constructor; auto.
Qed.
Lemma require_rel what x : (exists n n', require cval g what x = COk n /\ require cval g' what x = COk n' /\ R n n') \/
  exists m, require cval g what x = CMsg m /\ require cval g' what x = CMsg m.
Proof.
  unfold require, lookup_idx. destruct (forall2_hd _ _ _ (get_rel x)) as [n n' K|]; [left|right]; eauto.
Qed.
Lemma find_by_rel order test : Forall2 R (find_by order (the_index cval g) test) (find_by order (the_index cval g') test).
Proof. unfold find_by. induction order as [|x r IH]; cbn; [constructor|]. apply Forall2_app; [|exact IH]. destruct (test x); [apply get_rel|constructor]. Qed.

Hypothesis Fl : lfiles g' = lfiles g.
Lemma loc_rel n n' : R n n' -> loc_cell cval g n = loc_cell cval g' n'.
Proof. intros H. unfold loc_cell. rewrite (R_data _ _ H), Fl. reflexivity. Qed.
Lemma row_rel n n' x : R n n' -> name_row cval g n x = name_row cval g' n' x.
Proof. intros H. unfold name_row. now rewrite (loc_rel _ _ H). Qed.

Lemma registers_rel o : run_registers cval g o = run_registers cval g' o.
Proof.
  unfold run_registers. f_equal. apply ctraverse_rel with (P := R).
  - apply forall2_filter; [apply forall2_filter; [exact R_nodes|]|].
    + intros a b K. now rewrite (R_data _ _ K).
    + intros a b K. now rewrite (R_path _ _ K).
  - intros a b K. rewrite (R_path _ _ K). now apply row_rel.
Qed.
Lemma found_rel o l l' : Forall2 R l l' -> run_found cval g o l = run_found cval g' o l'.
Proof.
  intros F. unfold run_found. f_equal. apply ctraverse_rel with (P := R).
  - apply forall2_filter; [exact F|]. intros a b K. now rewrite (R_path _ _ K).
  - intros a b K. rewrite (R_path _ _ K). now apply row_rel.
Qed.
Lemma cone_out_rel o x : run_cone cval getCombFanOut g o x = run_cone cval getCombFanOut g' o x.
Proof.
  unfold run_cone, requireNode. destruct (require_rel (lit "could not find node") x) as [(n & n' & -> & -> & K)|(m & -> & ->)]; [|reflexivity].
  cbn [cbind]. destruct (fanOut_rel _ _ K) as [l l' F|]; [|reflexivity]. cbn [of_option cbind]. f_equal. apply ctraverse_rel with (P := R).
  - apply forall2_filter; [exact F|]. intros a b H. now rewrite (R_path _ _ H).
  - intros a b H. rewrite (R_path _ _ H). now apply row_rel.
Qed.

(** * Paths *)
Definition TR : tmap -> tmap -> Prop := Forall2 (fun x y => R (fst x) (fst y) /\ R (snd x) (snd y)).
Lemma tm_find_rel m m' n n' : TR m m' -> R n n' -> orel R (tm_find m n) (tm_find m' n').
Proof.
  intros F H. unfold tm_find. induction F as [|[a b] [a' b'] l l' [K1 K2] F IH]; cbn; [constructor|]. cbn in K1, K2.
  rewrite (R_eqb _ _ _ _ K1 H). destruct (Nat.eqb a' n'); cbn; [constructor; exact K2|exact IH].
Qed.
Lemma pf_visit_rel tr tr' : Forall2 (EvR R E) tr tr' -> forall m m', TR m m' -> orel TR (pf_visit tr m) (pf_visit tr' m').
Proof.
  induction 1 as [|x y l l' K F IH]; cbn; intros m m' H; [constructor; exact H|]. destruct K as [n n' K|e e' K|n n' K|]; auto.
  destruct K as (K1 & K2 & _). destruct (tm_find_rel _ _ _ _ H K2); [constructor|]. apply IH. constructor; cbn; auto.
Qed.
Inductive PR : presult -> presult -> Prop :=
| pr_path p p' : Forall2 R p p' -> PR (PPath p) (PPath p')
| pr_fail : PR PFail PFail.
Lemma walk_rel m m' s s' : TR m m' -> R s s' -> forall fuel c c' acc acc', R c c' -> Forall2 R acc acc' -> PR (walk_parents fuel m s c acc) (walk_parents fuel m' s' c' acc').
Proof.
  intros H K. induction fuel as [|k IH]; cbn; intros c c' acc acc' Kc Ka; [constructor|].
  destruct (tm_find_rel _ _ _ _ H Kc) as [p p' Kp|]; [|constructor]. rewrite (R_eqb _ _ _ _ Kp K). destruct (Nat.eqb p' s'); [constructor; constructor; auto|].
  apply IH; [exact Kp|constructor; auto].
Qed.
Lemma path_rel s s' e e' : R s s' -> R e e' -> PR (pf_find nl s e) (pf_find nl' s' e').
Proof.
  intros Ks Ke. unfold pf_find, path_with. destruct (fwd_rel _ _ s s' enabled_rel Ks) as [tr tr' F|]; [|constructor].
  destruct (pf_visit_rel _ _ F [] []) as [m m' H|]; [constructor| |constructor].
  unfold buildPath. destruct (tm_find_rel _ _ _ _ H Ke); [|constructor; constructor]. rewrite (R_eqb _ _ _ _ Ks Ke).
  destruct (Nat.eqb s' e'); [constructor; repeat constructor; exact Ke|]. rewrite (forall2_len _ _ _ H). apply walk_rel; auto.
Qed.
Lemma find_path_rel a b s s' e e' : R s s' -> R e e' ->
  (exists p p', find_path cval g a b s e = COk p /\ find_path cval g' a b s' e' = COk p' /\ Forall2 R p p' /\ p <> []) \/
  find_path cval g a b s e = find_path cval g' a b s' e' /\ (forall p, find_path cval g a b s e <> COk p).
Proof.
  intros Ks Ke. unfold find_path. destruct (path_rel _ _ _ _ Ks Ke) as [p p' F|]; [|right; split; [reflexivity|discriminate]].
  destruct F as [|x y p p' K F]; [right; split; [reflexivity|discriminate]|left]. exists (x :: p), (y :: p'). repeat split; [constructor; auto|discriminate].
Qed.

(** Reports as text. *)
Lemma edge_to_rel a a' b b' : R a a' -> R b b' -> orel E (findEdgeTo (nst (lg g) a) b) (findEdgeTo (nst (lg g') a') b').
Proof.
  intros Ka Kb. unfold findEdgeTo. pose proof (R_outs _ _ Ka) as F. unfold nouts in F. cbn in F.
  induction F as [|e e' l l' K F IH]; cbn; [constructor|]. unfold to at 1 3. assert (K' := K). destruct K' as (_ & T & _). rewrite (R_eqb _ _ _ _ T Kb).
  destruct (Nat.eqb (etgt e') b'); [constructor; exact K|exact IH].
Qed.
Lemma sym_rel e e' : E e e' -> edge_symbol cval g e = edge_symbol cval g' e'.
Proof. intros (_ & _ & X). cbn in X. injection X as _ S _ _. exact S. Qed.
Lemma bounds_rel e e' : E e e' -> dbounds (ledge g (eid e)) = dbounds (ledge g' (eid e')).
Proof. intros (_ & _ & X). cbn in X. injection X as _ _ B _. exact B. Qed.
Lemma walk_text_rel r r' : Forall2 R r r' -> forall a a', R a a' ->
  report_walk cval (reportNodeText cval (lfiles g)) (reportEdgeText cval g) g a r = report_walk cval (reportNodeText cval (lfiles g')) (reportEdgeText cval g') g' a' r'.
Proof.
  induction 1 as [|b b' r r' K F IH]; cbn; intros a a' Ka; [now rewrite (R_data _ _ Ka), Fl|].
  destruct (edge_to_rel _ _ _ _ Ka K) as [e e' H|]; [|reflexivity].
  assert (X : reportEdgeText cval g e = reportEdgeText cval g' e') by (unfold reportEdgeText; now rewrite (sym_rel _ _ H), (bounds_rel _ _ H), Fl).
  rewrite X, (IH _ _ K), (R_data _ _ Ka), Fl. reflexivity.
Qed.
Lemma report_rel live live' p p' : Forall2 R p p' -> reportPath cval g false live p = reportPath cval g' false live' p'.
Proof.
  intros F. unfold reportPath, report_loop. cbn [andb]. destruct F as [|a a' r r' K F]; [reflexivity|]. now rewrite (walk_text_rel _ _ F _ _ K).
Qed.
Lemma run_path_rel live live' a b : run_path cval false live g a b = run_path cval false live' g' a b.
Proof.
  unfold run_path. destruct (require_rel (lit "could not find start point") a) as [(s & s' & -> & -> & Ks)|(m & -> & ->)]; [|reflexivity].
  destruct (require_rel (lit "could not find finish point") b) as [(e & e' & X & X' & Ke)|(m & X & X')]; cbn [cbind]; rewrite X, X'; [|reflexivity].
  cbn [cbind]. destruct (find_path_rel a b _ _ _ _ Ks Ke) as [(p & p' & -> & -> & F & _)|[F N]].
  - cbn [cbind]. now rewrite (report_rel live live' _ _ F).
  - rewrite F in N |- *. destruct (find_path cval g' a b s' e') as [p| |]; [now destruct (N p)|reflexivity|reflexivity].
Qed.
End Same.
