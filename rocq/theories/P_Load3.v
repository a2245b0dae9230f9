(** Proofs for C119: loops, DOT text and the commands. *)
From Coq Require Import Ascii String Permutation Sorted.
From Verif Require Import Base M_Graph M_Range M_Netlist M_DFS M_Path M_Query M_Cycle M_Text M_Serial M_Dot M_Report M_Cli
  S_Graph S_Reach S_Netlist S_Serial S_Query S_Cli P_Path P_Query P_Cli P_Load1 P_Load2 S_Load.
Notation length := List.length.

Section Same.
Variable cval : Type.
Variables g g' : nlg cval.
Hypothesis M : Mirror (lg g).
Hypothesis M' : Mirror (lg g').
Hypothesis Vw : view g' = view g.
Notation ns := (gnodes (lg g)).
Notation ns' := (gnodes (lg g')).
Notation nl := (nl_of cval g).
Notation nl' := (nl_of cval g').
Notation R := (R cval g g').
Notation E := (E cval g g').
Notation Req := (R_eqb cval g g' M M').
Notation id := (fun m => nid (ninf nl m)).
Notation id' := (fun m => nid (ninf nl' m)).

(** * Loops *)
Section Loops.
Hypothesis Hord : forall a a' b b', R a a' -> R b b' -> Nat.ltb (id a) (id b) = Nat.ltb (id' a') (id' b').
Lemma suffix_rel n n' l l' : R n n' -> Forall2 R l l' -> orel (Forall2 R) (suffix_from n l) (suffix_from n' l').
Proof.
  intros K F. induction F as [|a b l l' H F IH]; cbn; [constructor|]. rewrite (Req _ _ _ _ H K). destruct (Nat.eqb b n'); [constructor; constructor; auto|exact IH].
Qed.
Lemma min_rel l l' : Forall2 R l l' -> forall c c', R c c' -> R (min_elem id c l) (min_elem id' c' l').
Proof.
  induction 1 as [|a b l l' H F IH]; cbn [min_elem]; intros c c' K; [exact K|]. rewrite (Hord _ _ _ _ H K). destruct (Nat.ltb _ _); auto.
Qed.
Lemma rotate_rel m m' l l' : R m m' -> Forall2 R l l' -> forall p p', Forall2 R p p' -> Forall2 R (rotate_to m p l) (rotate_to m' p' l').
Proof.
  intros K F. induction F as [|a b l l' H F IH]; cbn; intros p p' Fp; [now apply forall2_rev|].
  rewrite (Req _ _ _ _ H K). destruct (Nat.eqb b m'); [|apply IH; constructor; auto].
  constructor; [exact H|]. apply Forall2_app; [exact F|now apply forall2_rev].
Qed.
Lemma canon_rel l l' : Forall2 R l l' -> Forall2 R (canon id l) (canon id' l').
Proof.
  intros F. destruct F as [|a b l l' H F]; [constructor|]. unfold canon. apply rotate_rel; [now apply min_rel|constructor; auto|constructor].
Qed.
Lemma removelast_rel l l' : Forall2 R l l' -> Forall2 R (removelast l) (removelast l').
Proof. induction 1 as [|a b l l' H F IH]; cbn; [constructor|]. destruct F; [constructor|]. constructor; auto. Qed.
Definition VR (v v' : cvis) : Prop := Forall2 R (fst v) (fst v') /\ Forall2 (Forall2 R) (snd v) (snd v').
Lemma event_rel v v' x y : VR v v' -> EvR R E x y -> VR (cyc_event id v x) (cyc_event id' v' y).
Proof.
  intros [A B] H. destruct H as [n n' K|e e' K|n n' K|]; cbn.
  - split; cbn; [apply Forall2_app; auto|exact B].
  - split; auto.
  - destruct (suffix_rel _ _ _ _ K A) as [c c' F|]; [|split; auto]. split; cbn; [exact A|]. apply Forall2_app; [exact B|]. constructor; [now apply canon_rel|constructor].
  - split; cbn; [now apply removelast_rel|exact B].
Qed.
Lemma visit_rel tr tr' : Forall2 (EvR R E) tr tr' -> VR (cyc_visit id tr) (cyc_visit id' tr').
Proof.
  intros F. unfold cyc_visit. assert (V : VR ([], []) ([], [])) by (split; constructor). revert V. generalize (@nil nat, @nil (list nat)) at 1 3 as v.
  generalize (@nil nat, @nil (list nat)) as v'. induction F as [|x y l l' H F IH]; cbn [fold_left]; intros v' v V; [exact V|].
  apply IH. now apply event_rel.
Qed.
Lemma concat_rel l l' : Forall2 (Forall2 R) l l' -> Forall2 R (concat l) (concat l').
Proof. induction 1; cbn; [constructor|]. now apply Forall2_app. Qed.
Lemma detect_rel l l' : Forall2 R l l' -> forall vis vis' acc acc', Forall2 R vis vis' -> Forall2 (Forall2 R) acc acc' ->
  orel (Forall2 (Forall2 R)) (detect_loop nl l vis acc) (detect_loop nl' l' vis' acc').
Proof.
  induction 1 as [|a b l l' H F IH]; cbn [detect_loop]; intros vis vis' acc acc' Fv Fa; [constructor; exact Fa|].
  rewrite (mem_rel R Req _ _ _ _ H Fv). destruct (mem b vis'); [now apply IH|].
  destruct (fwd_rel cval g g' M M' Vw (pred_comb nl) (pred_comb nl') a b (comb_rel cval g g' Vw) H) as [tr tr' T|]; [|constructor].
  pose proof (visit_rel _ _ T) as [_ Fc]. apply IH.
  - constructor; [exact H|]. apply Forall2_app; [exact Fv|now apply concat_rel].
  - now apply Forall2_app.
Qed.
Lemma list_R_eq c c' d d' : Forall2 R c c' -> Forall2 R d d' -> (c = d <-> c' = d').
Proof.
  intros F. revert d d'. induction F as [|a b l l' H F IH]; intros d d' G; destruct G as [|x y m m' K G]; split; intros X; try discriminate; auto.
  - injection X as -> X. rewrite (R_fun cval g g' M _ _ _ H K). f_equal. apply (IH _ _ G). exact X.
  - injection X as -> X. rewrite (R_inj cval g g' M' _ _ _ H K). f_equal. apply (IH _ _ G). exact X.
Qed.
Lemma in_list_rel c c' l l' : Forall2 R c c' -> Forall2 (Forall2 R) l l' -> (In c l <-> In c' l').
Proof.
  intros K F. induction F as [|a b l l' H F IH]; cbn; [tauto|]. rewrite IH. now rewrite (list_R_eq _ _ _ _ H K).
Qed.
Lemma nodup_rel l l' : Forall2 (Forall2 R) l l' -> Forall2 (Forall2 R) (nodup (list_eq_dec Nat.eq_dec) l) (nodup (list_eq_dec Nat.eq_dec) l').
Proof.
  induction 1 as [|a b l l' H F IH]; cbn; [constructor|]. pose proof (in_list_rel _ _ _ _ H F) as X.
  destruct (in_dec _ a l), (in_dec _ b l'); try tauto. constructor; auto.
Qed.
Lemma lex_rel c c' : Forall2 R c c' -> forall d d', Forall2 R d d' -> lex_ltb (map id c) (map id d) = lex_ltb (map id' c') (map id' d').
Proof.
  induction 1 as [|a b l l' H F IH]; intros d d' G; destruct G as [|x y m m' K G]; cbn [map lex_ltb]; try reflexivity.
  rewrite (Hord _ _ _ _ H K), (Hord _ _ _ _ K H). destruct (Nat.ltb _ _); [reflexivity|]. destruct (Nat.ltb _ _); [reflexivity|]. now apply IH.
Qed.
Lemma insert_rel c c' l l' : Forall2 R c c' -> Forall2 (Forall2 R) l l' -> Forall2 (Forall2 R) (insert_cycle id c l) (insert_cycle id' c' l').
Proof.
  intros K F. induction F as [|a b l l' H F IH]; cbn [insert_cycle]; [repeat constructor; auto|]. rewrite (lex_rel _ _ K _ _ H).
  destruct (lex_ltb _ _); repeat constructor; auto.
Qed.
Lemma loops_rel : orel (Forall2 (Forall2 R)) (getAllLoops nl) (getAllLoops nl').
Proof.
  unfold getAllLoops. change (gnodes (ng nl)) with ns. change (gnodes (ng nl')) with ns'.
  destruct (detect_rel _ _ (R_nodes cval g g' Vw) [] [] [] []) as [l l' F|]; [constructor|constructor| |constructor]. cbn [option_map]. constructor.
  pose proof (nodup_rel _ _ F) as G. induction G; cbn; [constructor|]. now apply insert_rel.
Qed.
Lemma run_loops_rel live live' : lfiles g' = lfiles g -> run_loops cval false live g = run_loops cval false live' g'.
Proof.
  intros Fl. unfold run_loops. destruct loops_rel as [l l' F|]; [|reflexivity]. cbn [of_option cbind]. f_equal.
  apply ctraverse_rel with (P := Forall2 R); [exact F|]. intros a b K. f_equal. exact (report_rel cval g g' M M' Vw Fl live live' _ _ K).
Qed.
End Loops.

(** * Cones by in-edges, as sets *)
Lemma fanIn_rel n n' : R n n' -> exists l l', getCombFanIn nl n = Some l /\ getCombFanIn nl' n' = Some l' /\ NoDup l /\ NoDup l' /\
  (forall m, In m l -> exists m', In m' l' /\ R m m') /\ (forall m', In m' l' -> exists m, In m l /\ R m m').
Proof.
  intros K. destruct (R_in cval g g' _ _ K) as [I I'].
  destruct (fanIn_spec nl n M I) as (l & E1 & N1 & _ & S1). destruct (fanIn_spec nl' n' M' I') as (l' & E2 & N2 & _ & S2).
  exists l, l'. split; [exact E1|]. split; [exact E2|]. split; [exact N1|]. split; [exact N2|]. split.
  - intros m Hm. apply S1 in Hm. destruct (back_reach cval g g' M M' Vw _ _ _ K Hm) as (m' & Km & Rm). exists m'. split; [now apply S2|exact Km].
  - intros m' Hm. apply S2 in Hm. destruct (back_reach cval g' g M' M (eq_sym Vw) _ _ _ (R_sym cval g g' _ _ K) Hm) as (m & Km & Rm).
    exists m. split; [now apply S1|exact (R_sym cval g' g _ _ Km)].
Qed.
Lemma set_in l l' : (forall m, In m l -> exists m', In m' l' /\ R m m') -> (forall m', In m' l' -> exists m, In m l /\ R m m') ->
  forall m m', R m m' -> existsb (Nat.eqb m) l = existsb (Nat.eqb m') l'.
Proof.
  intros A B m m' K. apply eq_true_iff_eq. rewrite !existsb_exists. split.
  - intros (x & I & X). apply Nat.eqb_eq in X as <-. destruct (A _ I) as (y & J & Ky). exists y. split; [exact J|]. apply Nat.eqb_eq. exact (R_fun cval g g' M _ _ _ K Ky).
  - intros (x & I & X). apply Nat.eqb_eq in X as <-. destruct (B _ I) as (y & J & Ky). exists y. split; [exact J|]. apply Nat.eqb_eq. exact (R_inj cval g g' M' _ _ _ K Ky).
Qed.
Lemma in_set l l' : Forall2 R l l' -> forall m m', R m m' -> existsb (Nat.eqb m) l = existsb (Nat.eqb m') l'.
Proof. intros F m m' K. exact (mem_rel R Req _ _ _ _ K F). Qed.

(** * DOT *)
Section Dot.
Variable ctext : cval -> str.
Hypothesis Hid : forall n n', R n n' -> lid g n = lid g' n'.
Definition FR (f f' : option (list nat)) : Prop := forall n n', R n n' -> included f n = included f' n'.
Lemma wnodes_rel f f' l l' : FR f f' -> Forall2 R l l' -> write_nodes cval ctext g f l = write_nodes cval ctext g' f' l'.
Proof.
  intros Hf F. induction F as [|a b l l' K F IH]; cbn [write_nodes]; [reflexivity|].
  rewrite (Hf _ _ K), IH, (Hid _ _ K), (R_data cval g g' Vw _ _ K). reflexivity.
Qed.
Lemma wedges_rel f f' n n' l l' : FR f f' -> R n n' -> Forall2 E l l' -> write_edges cval g f n l = write_edges cval g' f' n' l'.
Proof.
  intros Hf K F. induction F as [|a b l l' H F IH]; cbn [write_edges]; [reflexivity|].
  assert (X : writeEdge cval g n a = writeEdge cval g' n' b).
  { unfold writeEdge. rewrite (sym_rel cval g g' _ _ H), (bounds_rel cval g g' _ _ H), (Hid _ _ K), (Hid _ _ (proj1 (proj2 H))). reflexivity. }
  rewrite X, IH, (Hf _ _ (proj1 (proj2 H))). assert (D : ddis (ledge g (eid a)) = ddis (ledge g' (eid b))).
  { destruct H as (_ & _ & H). cbn in H. injection H as _ _ _ H. exact H. }
  now rewrite D.
Qed.
Lemma wall_rel f f' l l' : FR f f' -> Forall2 R l l' -> write_all_edges cval g f l = write_all_edges cval g' f' l'.
Proof.
  intros Hf F. induction F as [|a b l l' K F IH]; cbn [write_all_edges]; [reflexivity|].
  rewrite (Hf _ _ K), IH. pose proof (wedges_rel f f' a b _ _ Hf K (R_outs cval g g' M M' Vw _ _ K)) as X. unfold nouts in X. cbn [ng nl_of] in X. now rewrite X.
Qed.
Lemma render_rel f f' : FR f f' -> render cval ctext g f = render cval ctext g' f'.
Proof. intros Hf. unfold render. now rewrite (wnodes_rel f f' _ _ Hf (R_nodes cval g g' Vw)), (wall_rel f f' _ _ Hf (R_nodes cval g g' Vw)). Qed.
Lemma scope_rel o : (exists f f', dot_scope cval g o = COk f /\ dot_scope cval g' o = COk f' /\ FR f f') \/
  (dot_scope cval g o = dot_scope cval g' o /\ forall f, dot_scope cval g o <> COk f).
Proof.
  assert (Rq : forall what x, (exists n n', require cval g what x = COk n /\ require cval g' what x = COk n' /\ R n n') \/
    exists m, require cval g what x = CMsg m /\ require cval g' what x = CMsg m) by exact (require_rel cval g g' Vw).
  unfold dot_scope, requireNode. destruct (o_fanout o) as [x|].
  - destruct (Rq (lit "could not find node") x) as [(n & n' & -> & -> & K)|(m & -> & ->)]; cbn [cbind]; [|right; split; [reflexivity|discriminate]].
    destruct (fanOut_rel cval g g' M M' Vw _ _ K) as [l l' F|]; cbn [of_option cbind]; [|right; split; [reflexivity|discriminate]].
    left. exists (Some (n :: l)), (Some (n' :: l')). repeat split. intros a a' Ka. cbn [included]. apply in_set; [constructor; auto|exact Ka].
  - destruct (o_fanin o) as [x|].
    + destruct (Rq (lit "could not find node") x) as [(n & n' & -> & -> & K)|(m & -> & ->)]; cbn [cbind]; [|right; split; [reflexivity|discriminate]].
      destruct (fanIn_rel _ _ K) as (l & l' & -> & -> & _ & _ & A & B). cbn [of_option cbind].
      left. exists (Some (n :: l)), (Some (n' :: l')). repeat split. intros a a' Ka. cbn [included]. apply set_in with (3 := Ka).
      * intros m [<-|Hm]; [exists n'; cbn; auto|]. destruct (A _ Hm) as (m' & I & Km). exists m'. cbn. auto.
      * intros m [<-|Hm]; [exists n; cbn; auto|]. destruct (B _ Hm) as (m' & I & Km). exists m'. cbn. auto.
    + destruct (o_from o) as [a|]; [|left; exists None, None; repeat split; intros ? ? _; reflexivity].
      destruct (o_to o) as [b|]; [|left; exists None, None; repeat split; intros ? ? _; reflexivity].
      destruct (Rq (lit "could not find node") a) as [(s & s' & -> & -> & Ks)|(m & -> & ->)]; cbn [cbind]; [|right; split; [reflexivity|discriminate]].
      destruct (Rq (lit "could not find node") b) as [(e & e' & -> & -> & Ke)|(m & -> & ->)]; cbn [cbind]; [|right; split; [reflexivity|discriminate]].
      destruct (find_path_rel cval g g' M M' Vw a b _ _ _ _ Ks Ke) as [(p & p' & -> & -> & F & _)|[F N]]; cbn [cbind].
      * left. exists (Some p), (Some p'). repeat split. intros n n' Kn. cbn [included]. now apply in_set.
      * right. rewrite F in N |- *. destruct (find_path cval g' a b s' e') as [p| |]; [now destruct (N p)| |]; cbn; split; try reflexivity; discriminate.
Qed.
Lemma run_dot_rel o f : run_dot cval ctext g o f = run_dot cval ctext g' o f.
Proof.
  unfold run_dot. destruct (scope_rel o) as [(x & x' & -> & -> & H)|[F N]]; cbn [cbind].
  - now rewrite (render_rel _ _ H).
  - rewrite F in N |- *. destruct (dot_scope cval g' o) as [p| |]; [now destruct (N p)|reflexivity|reflexivity].
Qed.
End Dot.

(** * Tables up to order *)
Hypothesis Fl : lfiles g' = lfiles g.
Lemma loc_nomsg (h : nlg cval) n m : loc_cell cval h n <> CMsg m.
Proof. unfold loc_cell. destruct (getLocation cval _); [|discriminate]. destruct (loc_text _ _); discriminate. Qed.
Lemma row_nomsg (h : nlg cval) n x m : name_row cval h n x <> CMsg m.
Proof. unfold name_row. pose proof (loc_nomsg h n m) as H. destruct (loc_cell cval h n); cbn; [discriminate|congruence|discriminate]. Qed.
Lemma answer_rows h x y : rows_same x y -> same_answer (cbind x (fun t => COk (OTable h t))) (cbind y (fun t => COk (OTable h t))).
Proof. intros [(t & t' & -> & -> & P)|[-> ->]]; cbn; constructor. exact P. Qed.
Lemma answer_refl x : same_answer x x.
Proof. destruct x as [[]| |]; constructor. apply Permutation_refl. Qed.
Lemma NoDup_filter' {A} (f : A -> bool) l : NoDup l -> NoDup (filter f l).
Proof. apply NoDup_filter. Qed.

Lemma cone_in_rel o x : same_answer (run_cone cval getCombFanIn g o x) (run_cone cval getCombFanIn g' o x).
Proof.
  unfold run_cone, requireNode. destruct (require_rel cval g g' Vw (lit "could not find node") x) as [(n & n' & -> & -> & K)|(m & -> & ->)]; [|constructor].
  cbn [cbind]. destruct (fanIn_rel _ _ K) as (l & l' & -> & -> & N1 & N2 & A & B). cbn [of_option cbind]. apply answer_rows.
  apply rows_match with (P := R); [now apply NoDup_filter|now apply NoDup_filter|exact (R_fun cval g g' M)|exact (R_inj cval g g' M')| | | |].
  - intros m Hm. apply filter_In in Hm as [Hm T]. destruct (A _ Hm) as (m' & I & Km). exists m'. split; [|exact Km]. apply filter_In. split; [exact I|].
    now rewrite <- (R_path cval g g' Vw _ _ Km).
  - intros m Hm. apply filter_In in Hm as [Hm T]. destruct (B _ Hm) as (m' & I & Km). exists m'. split; [|exact Km]. apply filter_In. split; [exact I|].
    now rewrite (R_path cval g g' Vw _ _ Km).
  - intros a b H. rewrite (R_path cval g g' Vw _ _ H). exact (row_rel cval g g' Vw Fl _ _ _ H).
  - intros a m. apply row_nomsg.
Qed.
Lemma const_rel ctext x : same_answer (run_const cval ctext g x) (run_const cval ctext g' x).
Proof.
  unfold run_const, requireNode. destruct (require_rel cval g g' Vw (lit "could not find node") x) as [(n & n' & -> & -> & K)|(m & -> & ->)]; [|constructor].
  cbn [cbind]. destruct (R_in cval g g' _ _ K) as [I I'].
  destruct (c21 nl n M I) as (l & -> & N1 & A1 & B1). destruct (c21 nl' n' M' I') as (l' & -> & N2 & A2 & B2). cbn [of_option cbind].
  assert (Src : Source cval g n \/ ~ Source cval g n -> (forall m, In m l -> exists m', In m' l' /\ R m m') /\ (forall m', In m' l' -> exists m, In m l /\ R m m')).
  { intros [S|S].
    - rewrite (A1 S), (A2 (source_rel cval g g' M M' Vw _ _ K S)). split; intros ? [].
    - assert (S' : ~ Source cval g' n') by (intros S'; exact (S (source_rel cval g' g M' M (eq_sym Vw) _ _ (R_sym cval g g' _ _ K) S'))).
      split; intros m Hm.
      + apply (B1 S) in Hm as (D & Rm & Kd). destruct (back_reach cval g g' M M' Vw _ _ _ K Rm) as (m' & Km & Rm'). exists m'. split; [|exact Km].
        apply (B2 S'). split; [intros ->; exact (D (R_inj cval g g' M' _ _ _ Km K))|]. split; [exact Rm'|]. now rewrite <- (kind_rel cval g g' Vw _ _ Km).
      + apply (B2 S') in Hm as (D & Rm & Kd). destruct (back_reach cval g' g M' M (eq_sym Vw) _ _ _ (R_sym cval g g' _ _ K) Rm) as (m' & Km & Rm').
        apply R_sym in Km. exists m'. split; [|exact Km].
        apply (B1 S). split; [intros ->; exact (D (R_fun cval g g' M _ _ _ Km K))|]. split; [exact Rm'|]. now rewrite (kind_rel cval g g' Vw _ _ Km). }
  assert (Dec : Source cval g n \/ ~ Source cval g n).
  { destruct (fanIn_spec nl n M I) as (c & _ & _ & _ & S1).
    destruct (existsb (fun m => negb (Nat.eqb m n) && match nkind (ninf nl m) with KPort => true | _ => false end &&
                match ins (nst (lg g) m) with [] => true | _ => false end) c) eqn:X.
    - left. apply existsb_exists in X as (m & Im & Y). apply andb_true_iff in Y as [Y Z]. apply andb_true_iff in Y as [W Y].
      exists m. split; [intros ->; rewrite Nat.eqb_refl in W; discriminate|]. split; [now apply S1|].
      split; [destruct (nkind (ninf nl m)); try discriminate; reflexivity|]. change (ins (nst (lg g) m) = []). destruct (ins (nst (lg g) m)); [reflexivity|discriminate].
    - right. intros (m & D & Rm & Kd & Im). change (ins (nst (lg g) m) = []) in Im. apply S1 in Rm.
      assert (Y : existsb (fun m => negb (Nat.eqb m n) && match nkind (ninf nl m) with KPort => true | _ => false end &&
                match ins (nst (lg g) m) with [] => true | _ => false end) c = true); [|congruence].
      apply existsb_exists. exists m. split; [exact Rm|]. rewrite Kd, Im. apply Nat.eqb_neq in D. now rewrite D. }
  destruct (Src Dec) as [A B]. apply answer_rows.
  apply rows_match with (P := R); [exact N1|exact N2|exact (R_fun cval g g' M)|exact (R_inj cval g g' M')|exact A|exact B| |].
  - intros a b H. rewrite (R_data cval g g' Vw _ _ H). destruct (lnode g' b); try reflexivity. exact (row_rel cval g g' Vw Fl _ _ _ H).
  - intros a m. destruct (lnode g a); try discriminate. apply row_nomsg.
Qed.
Definition PR2 {A} (x y : A * nat) : Prop := fst x = fst y /\ R (snd x) (snd y).
Lemma drivers_rel ctext addr addr' x : (forall a b, addr a = addr b -> a = b) -> (forall a b, addr' a = addr' b -> a = b) ->
  same_answer (run_drivers cval ctext addr g x) (run_drivers cval ctext addr' g' x).
Proof.
  intros Ia Ia'. unfold run_drivers, requireNode. destruct (parseNameAndRange x) as [p r].
  destruct (require_rel cval g g' Vw (lit "could not find node") p) as [(n & n' & -> & -> & K)|(m & -> & ->)]; [|constructor]. cbn [cbind].
  set (q := match r with Some r => r | None => Range 0 int32_max end).
  assert (X : match r with Some r => getBitDrivers addr nl p r | None => getBitDrivers_all addr nl p end = getBitDrivers addr nl p q) by (destruct r; reflexivity).
  assert (X' : match r with Some r => getBitDrivers addr' nl' p r | None => getBitDrivers_all addr' nl' p end = getBitDrivers addr' nl' p q) by (destruct r; reflexivity).
  rewrite X, X'. clear X X'. apply answer_rows.
  assert (Raw : forall (h : nlg cval) ad, (forall a b, ad a = ad b -> a = b) -> forall y, In y (getBitDrivers ad (nl_of cval h) p q) <-> In y (raw_bd (nl_of cval h) p q)).
  { intros h ad Hi. apply (bd_result ad (raw_bd (nl_of cval h) p q) Hi). intros [r0 d] Hx. apply raw_bd_iff in Hx.
    destruct Hx as (e & _ & _ & X). pose proof (intersection_spec (ebounds (nl_of cval h) e) q) as Y. rewrite X in Y. apply Y. }
  apply rows_match with (P := PR2).
  - apply (c19 addr nl p q M Ia).
  - apply (c19 addr' nl' p q M' Ia').
  - intros [a1 a2] [b1 b2] [c1 c2] [H1 H2] [H3 H4]. cbn in *. f_equal; [congruence|exact (R_fun cval g g' M _ _ _ H2 H4)].
  - intros [a1 a2] [b1 b2] [c1 c2] [H1 H2] [H3 H4]. cbn in *. f_equal; [congruence|exact (R_inj cval g g' M' _ _ _ H2 H4)].
  - intros y Hy. apply (Raw g addr Ia) in Hy. destruct (raw_rel cval g g' M M' Vw p q y Hy) as (k & Kk & Ik). exists (fst y, k).
    split; [now apply (Raw g' addr' Ia')|]. split; [reflexivity|exact Kk].
  - intros y Hy. apply (Raw g' addr' Ia') in Hy. destruct (raw_rel cval g' g M' M (eq_sym Vw) p q y Hy) as (k & Kk & Ik). exists (fst y, k).
    split; [now apply (Raw g addr Ia)|]. split; [reflexivity|exact (R_sym cval g' g _ _ Kk)].
  - intros [a1 a2] [b1 b2] [H1 H2]. cbn [fst snd] in *. subst. now rewrite (loc_rel cval g g' Vw Fl _ _ H2), (R_data cval g g' Vw _ _ H2).
  - intros a m. pose proof (loc_nomsg g (snd a) m) as Y. destruct (loc_cell cval g (snd a)); cbn; [discriminate|congruence|discriminate].
Qed.

(** The search by name with another order of names. *)
Variables order order' : list str.
Hypothesis Ord : Permutation order order'.
Lemma flat_perm {A B} (f : A -> list B) l l' : Permutation l l' -> Permutation (flat_map f l) (flat_map f l').
Proof. apply Permutation_flat_map. Qed.
Lemma found_perm o l l1 l' : Permutation l l1 -> Forall2 R l1 l' -> same_answer (run_found cval g o l) (run_found cval g' o l').
Proof.
  intros P F. rewrite <- (found_rel cval g g' Vw Fl o _ _ F). unfold run_found. apply answer_rows. apply traverse_perm; [intros; apply row_nomsg|].
  clear F. induction P as [|a l l1 P IH|a b l|l1 l2 l3 P1 IH1 P2 IH2]; cbn; auto.
  - destruct (passesFilters _ _ _); auto.
  - destruct (passesFilters _ _ (value_or (path_of cval g a) [])), (passesFilters _ _ (value_or (path_of cval g b) [])); auto. constructor.
  - eapply Permutation_trans; eauto.
Qed.
Lemma found_by o test : same_answer (run_found cval g o (find_by order (the_index cval g) test)) (run_found cval g' o (find_by order' (the_index cval g') test)).
Proof.
  apply found_perm with (l1 := find_by order' (the_index cval g) test); [unfold find_by; now apply Permutation_flat_map|exact (find_by_rel cval g g' Vw order' test)].
Qed.
Lemma sens_rel o x : same_answer (run_sens cval order g o x) (run_sens cval order' g' o x).
Proof.
  unfold run_sens. set (l := findNodes order (the_index cval g) x). set (l' := findNodes order' (the_index cval g') x).
  assert (P : exists l1, Permutation l l1 /\ Forall2 R l1 l').
  { exists (findNodes order' (the_index cval g) x). split; [unfold l, findNodes, find_by; now apply Permutation_flat_map|exact (find_by_rel cval g g' Vw order' _)]. }
  assert (Hin : forall n, In n l -> exists n', In n' l' /\ R n n').
  { destruct P as (l1 & P & F). intros n I. apply (forall2_in_l _ _ _ _ F). eapply Permutation_in; eauto. }
  assert (Hin' : forall n', In n' l' -> exists n, In n l /\ R n n').
  { destruct P as (l1 & P & F). intros n I. destruct (forall2_in_r _ _ _ _ F I) as (m & J & Km). exists m. split; [|exact Km]. eapply Permutation_in; [symmetry; exact P|exact J]. }
  assert (Il : forall n, In n l -> In n ns) by (intros n I; destruct (Hin _ I) as (n' & _ & K); apply (R_in cval g g' _ _ K)).
  assert (Il' : forall n, In n l' -> In n ns') by (intros n I; destruct (Hin' _ I) as (n' & _ & K); apply (R_in cval g g' _ _ K)).
  destruct (gather_spec cval (fun n => n) (fun _ => true) g M l Il [] (NoDup_nil _)) as (s & Es & Ns & Hs).
  destruct (gather_spec cval (fun n => n) (fun _ => true) g' M' l' Il' [] (NoDup_nil _)) as (s' & Es' & Ns' & Hs').
  assert (X : forall a b, In (a, b) s -> exists a', In (a', b) s' /\ R a a').
  { intros a b I. apply Hs in I as [[]|(n & In_ & G)]. destruct (Hin _ In_) as (n' & In' & K). destruct (gates_rel cval g g' M M' Vw _ _ _ _ K G) as (a' & Ka & G').
    exists a'. split; [|exact Ka]. apply Hs'. right. eauto. }
  assert (X' : forall a b, In (a, b) s' -> exists a', In (a', b) s /\ R a' a).
  { intros a b I. apply Hs' in I as [[]|(n & In_ & G)]. destruct (Hin' _ In_) as (n' & In' & K).
    destruct (gates_rel cval g' g M' M (eq_sym Vw) _ _ _ _ (R_sym cval g g' _ _ K) G) as (a' & Ka & G').
    exists a'. split; [|exact (R_sym cval g' g _ _ Ka)]. apply Hs. right. eauto. }
  clearbody l l'. destruct l as [|n l], l' as [|n' l'].
  - constructor.
  - destruct (Hin' n' (or_introl eq_refl)) as (? & [] & _).
  - destruct (Hin n (or_introl eq_refl)) as (? & [] & _).
  - rewrite Es, Es'. cbn [cbind]. apply answer_rows. apply rows_match with (P := fun a b => R (fst a) (fst b) /\ snd a = snd b).
    + now apply NoDup_filter.
    + now apply NoDup_filter.
    + intros [a1 a2] [b1 b2] [c1 c2] [H1 H2] [H3 H4]. cbn in *. f_equal; [exact (R_fun cval g g' M _ _ _ H1 H3)|congruence].
    + intros [a1 a2] [b1 b2] [c1 c2] [H1 H2] [H3 H4]. cbn in *. f_equal; [exact (R_inj cval g g' M' _ _ _ H1 H3)|congruence].
    + intros [a b] I. apply filter_In in I as [I T]. destruct (X _ _ I) as (a' & I' & Ka). exists (a', b). split; [|cbn; auto]. apply filter_In. split; [exact I'|].
      cbn [fst] in *. now rewrite <- (R_path cval g g' Vw _ _ Ka).
    + intros [a b] I. apply filter_In in I as [I T]. destruct (X' _ _ I) as (a' & I' & Ka). exists (a', b). split; [|cbn; auto]. apply filter_In. split; [exact I'|].
      cbn [fst] in *. now rewrite (R_path cval g g' Vw _ _ Ka).
    + intros [a1 a2] [b1 b2] [H1 H2]. cbn [fst snd] in *. subst. now rewrite (loc_rel cval g g' Vw Fl _ _ H1), (R_path cval g g' Vw _ _ H1).
    + intros a m. pose proof (loc_nomsg g (fst a) m) as Y. destruct (loc_cell cval g (fst a)); cbn; [discriminate|congruence|discriminate].
Qed.

(** * The commands *)
Lemma dispatch_rel ctext addr addr' regex live live' o :
  (forall a b, addr a = addr b -> a = b) -> (forall a b, addr' a = addr' b -> a = b) ->
  (o_loops o <> None -> forall a a' b b', R a a' -> R b b' -> Nat.ltb (id a) (id b) = Nat.ltb (id' a') (id' b')) ->
  (o_dot o <> None -> forall n n', R n n' -> lid g n = lid g' n') ->
  same_answer (dispatch cval ctext addr order regex false live g o) (dispatch cval ctext addr' order' regex false live' g' o).
Proof.
  intros Ia Ia' Hord Hid. unfold dispatch.
  destruct (given (o_registers o)); [rewrite (registers_rel cval g g' Vw Fl o); apply answer_refl|].
  destruct (o_loops o) as [lv|]; cbn [given]; [rewrite (run_loops_rel (Hord ltac:(discriminate)) live live' Fl); apply answer_refl|].
  destruct (o_dot o) as [f|]; [rewrite (run_dot_rel ctext (Hid ltac:(discriminate)) o f); apply answer_refl|].
  destruct (o_find o) as [x|]; [apply found_by|].
  destruct (o_findre o) as [x|]; [unfold run_findre; destruct (regex x); [apply found_by|constructor]|].
  destruct (o_fanout o) as [x|]; [rewrite (cone_out_rel cval g g' M M' Vw Fl o x); apply answer_refl|].
  destruct (o_fanin o) as [x|]; [apply cone_in_rel|].
  destruct (o_sens o) as [x|]; [apply sens_rel|].
  destruct (o_const o) as [x|]; [apply const_rel|].
  destruct (o_drivers o) as [x|]; [now apply drivers_rel|].
  destruct (o_from o) as [a|]; [|constructor]. destruct (o_to o) as [b|]; [|constructor].
  rewrite (run_path_rel cval g g' M M' Vw Fl live live' a b). apply answer_refl.
Qed.
Lemma dispatch_eq ctext addr addr' regex live live' o : keeps_order o ->
  (o_loops o <> None -> forall a a' b b', R a a' -> R b b' -> Nat.ltb (id a) (id b) = Nat.ltb (id' a') (id' b')) ->
  (o_dot o <> None -> forall n n', R n n' -> lid g n = lid g' n') ->
  dispatch cval ctext addr order regex false live g o = dispatch cval ctext addr' order regex false live' g' o.
Proof.
  intros Ko Hord Hid. unfold dispatch, keeps_order in *.
  destruct (o_registers o); [cbn [given]; exact (registers_rel cval g g' Vw Fl o)|].
  destruct (o_loops o) as [lv|]; [cbn [given]; exact (run_loops_rel (Hord ltac:(discriminate)) live live' Fl)|]. cbn [given] in *.
  destruct (o_dot o) as [f|]; [exact (run_dot_rel ctext (Hid ltac:(discriminate)) o f)|].
  destruct (o_find o) as [x|]; [exact (found_rel cval g g' Vw Fl o _ _ (find_by_rel cval g g' Vw order _))|].
  destruct (o_findre o) as [x|]; [unfold run_findre; destruct (regex x); [exact (found_rel cval g g' Vw Fl o _ _ (find_by_rel cval g g' Vw order _))|reflexivity]|].
  destruct (o_fanout o) as [x|]; [exact (cone_out_rel cval g g' M M' Vw Fl o x)|].
  destruct Ko as [Ko|(A & B & C & D)]; [discriminate|]. rewrite A, B, C, D.
  destruct (o_from o) as [a|]; [|reflexivity]. destruct (o_to o) as [b|]; [|reflexivity].
  exact (run_path_rel cval g g' M M' Vw Fl live live' a b).
Qed.
End Same.

(** * IDs *)
Section Ids.
Variable cval : Type.
Variables g g' : nlg cval.
Variable next : Z.
Hypothesis Hn : (0 <= next)%Z.
Hypothesis Nm : Numbered g' next.
Lemma ids_same n n' : Numbered g next -> R cval g g' n n' -> lid g n = lid g' n'.
Proof. intros Ng (i & A & B). now rewrite (Nm _ _ B), (Ng _ _ A). Qed.
Lemma sorted_nth (l : list Z) : StronglySorted Z.lt l -> forall i j x y, nth_error l i = Some x -> nth_error l j = Some y -> (x < y)%Z <-> i < j.
Proof.
  induction 1 as [|a l S IH F]; intros i j x y A B; [destruct i; discriminate|]. rewrite Forall_forall in F.
  destruct i as [|i], j as [|j]; cbn in A, B.
  - replace y with x by congruence. split; intros; lia.
  - injection A as ->. apply nth_error_In in B. specialize (F _ B). split; intros; lia.
  - injection B as ->. apply nth_error_In in A. specialize (F _ A). split; intros; lia.
  - rewrite (IH _ _ _ _ A B). lia.
Qed.
Lemma order_same a a' b b' : Increasing g -> (forall n, In n (gnodes (lg g)) -> (0 <= lid g n)%Z) -> R cval g g' a a' -> R cval g g' b b' ->
  Nat.ltb (nid (ninf (nl_of cval g) a)) (nid (ninf (nl_of cval g) b)) = Nat.ltb (nid (ninf (nl_of cval g') a')) (nid (ninf (nl_of cval g') b')).
Proof.
  intros S P (i & A & B) (j & C & D). cbn [nid ninf nl_of]. pose proof (P a (nth_error_In _ _ A)) as Pa. pose proof (P b (nth_error_In _ _ C)) as Pb.
  pose proof (sorted_nth _ S i j _ _ (map_nth_error (lid g) _ _ A) (map_nth_error (lid g) _ _ C)) as X.
  rewrite (Nm _ _ B), (Nm _ _ D). clear - Hn X Pa Pb. apply eq_true_iff_eq. rewrite !Nat.ltb_lt. lia.
Qed.
End Ids.
Lemma numbered_increasing cval (g : nlg cval) next : Numbered g next -> Increasing g.
Proof.
  intros N. unfold Increasing. assert (H : forall l k, (forall i n, nth_error l i = Some n -> lid g n = (next + Z.of_nat (k + i))%Z) -> StronglySorted Z.lt (map (lid g) l)).
  { induction l as [|a l IH]; intros k Hk; cbn; constructor.
    - apply (IH (S k)). intros i n A. rewrite (Hk (S i) n A). lia.
    - apply Forall_forall. intros z I. apply in_map_iff in I as (n & <- & I). apply In_nth_error in I as [i I].
      rewrite (Hk (S i) n I), (Hk 0 a eq_refl). lia. }
  apply (H _ 0). exact N.
Qed.

(** * Save and load *)
From Verif Require Import P_Graph P_Serial2 P_Serial3.
Lemma alias_loops o : o_loops (alias o) = o_loops o.
Proof. unfold alias. destruct (_ && _); [reflexivity|]. destruct (_ && _); reflexivity. Qed.
Lemma alias_dot o : o_dot (alias o) = o_dot o.
Proof. unfold alias. destruct (_ && _); [reflexivity|]. destruct (_ && _); reflexivity. Qed.
Section Load.
Variable cval : Type.
Variable cbad : cval.
Variable ctext : cval -> str.
Variable cparse : str -> option cval.
Lemma loaded (g : nlg cval) next : Storable g -> Plain cbad ctext cparse g -> NoParallel g ->
  exists g', deserialize cbad cparse next (serialize ctext g) nl_empty = (g', Ok tt) /\ lfiles g' = lfiles g /\ view g' = view g /\
    Mirror (lg g') /\ Numbered g' next.
Proof.
  intros S P Q. destruct (round_trip cval cbad ctext cparse g next S) as (g' & A & B & _ & _ & D).
  destruct (round_trip_exact cval cbad ctext cparse g next S P Q) as (g2 & A2 & _ & _ & C2).
  rewrite A in A2. injection A2 as <-. exists g'. split; [exact A|]. split; [exact B|]. split; [exact C2|]. split.
  - apply (c01 outEdgeIndexThreshold). pose proof (deser_reachable cval cbad cparse next (serialize ctext g) nl_empty) as X. rewrite A in X. apply X.
    exists [], []. reflexivity.
  - intros i n H. apply (map_nth_error (lid g')) in H. rewrite D in H. 
    assert (L : i < length (gnodes (lg g))).
    { apply nth_error_Some. intros N. apply nth_error_None in N. assert (N2 : nth_error (map (fun i => (next + Z.of_nat i)%Z) (seq 0 (length (gnodes (lg g))))) i = None); [|congruence].
      apply nth_error_None. now rewrite map_length, seq_length. }
    assert (Z : nth_error (seq 0 (length (gnodes (lg g)))) i = Some i).
    { rewrite (nth_error_nth' _ 0); [|now rewrite seq_length]. now rewrite seq_nth. }
    apply (map_nth_error (fun i => (next + Z.of_nat i)%Z)) in Z. congruence.
Qed.
Lemma save_load addr addr' order order' regex live live' (g : nlg cval) next o :
  Storable g -> Plain cbad ctext cparse g -> NoParallel g -> (0 <= next)%Z ->
  (forall a b, addr a = addr b -> a = b) -> (forall a b, addr' a = addr' b -> a = b) -> Permutation order order' ->
  (o_loops o <> None -> Increasing g) -> (o_dot o <> None -> Numbered g next) ->
  exists g', deserialize cbad cparse next (serialize ctext g) nl_empty = (g', Ok tt) /\
    same_answer (run cval ctext addr order regex false live g o) (run cval ctext addr' order' regex false live' g' o).
Proof.
  intros S P Q Hn Ia Ia' Ho Hl Hd. destruct (loaded g next S P Q) as (g' & A & Fl & Vw & M' & Nm). exists g'. split; [exact A|].
  assert (M : Mirror (lg g)) by exact (c01 outEdgeIndexThreshold _ (st_graph _ _ S)).
  assert (Pos : forall n, In n (gnodes (lg g)) -> (0 <= lid g n)%Z) by (intros n I; apply (st_id64 _ _ S n I)).
  unfold run. apply (dispatch_rel cval g g' M M' Vw Fl order order' Ho); auto.
  - rewrite alias_loops. intros H a a' b b'. exact (order_same cval g g' next Hn Nm a a' b b' (Hl H) Pos).
  - rewrite alias_dot. intros H n n'. exact (ids_same cval g g' next Nm n n' (Hd H)).
Qed.
Lemma save_load_eq addr addr' order regex live live' (g : nlg cval) next o :
  Storable g -> Plain cbad ctext cparse g -> NoParallel g -> (0 <= next)%Z -> keeps_order (alias o) ->
  (o_loops o <> None -> Increasing g) -> (o_dot o <> None -> Numbered g next) ->
  exists g', deserialize cbad cparse next (serialize ctext g) nl_empty = (g', Ok tt) /\
    run cval ctext addr order regex false live g o = run cval ctext addr' order regex false live' g' o.
Proof.
  intros S P Q Hn Ko Hl Hd. destruct (loaded g next S P Q) as (g' & A & Fl & Vw & M' & Nm). exists g'. split; [exact A|].
  assert (M : Mirror (lg g)) by exact (c01 outEdgeIndexThreshold _ (st_graph _ _ S)).
  assert (Pos : forall n, In n (gnodes (lg g)) -> (0 <= lid g n)%Z) by (intros n I; apply (st_id64 _ _ S n I)).
  unfold run. apply (dispatch_eq cval g g' M M' Vw Fl); auto.
  - rewrite alias_loops. intros H a a' b b'. exact (order_same cval g g' next Hn Nm a a' b b' (Hl H) Pos).
  - rewrite alias_dot. intros H n n'. exact (ids_same cval g g' next Nm n n' (Hd H)).
Qed.
End Load.
