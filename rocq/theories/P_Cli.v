From Coq Require Import Ascii String.
From Verif Require Import Base M_Graph S_Graph P_Graph S_Reach M_Range M_Netlist S_Netlist M_Text S_Text P_Text
  M_Serial M_Path P_Path M_Query S_Query P_Query M_Cycle M_Dot M_Report S_Report P_Report M_Cli S_Dot S_Cli.
Notation length := List.length.

Lemma matches_iff t q : matches t q = true <-> exists ts, Lex q ts /\ Matches ts t.
Proof.
  unfold matches. destruct (c23 t q) as (b & ts & E & L & U & H). rewrite E, H. split.
  - intros M. eauto.
  - intros (ts' & L' & M). now rewrite <- (U _ L').
Qed.
Lemma passes_iff ss ns p : passesFilters ss ns p = true <-> Passes ss ns p.
Proof.
  unfold passesFilters, Passes. rewrite andb_true_iff.
  assert (A : match ss with [] => true | _ => existsb (pathInScope p) ss end = true <->
              (ss = [] \/ exists s, In s ss /\ InScope p s)).
  { destruct ss as [|s ss].
    - split; auto.
    - rewrite existsb_exists. split.
      + intros (x & I & H). right. exists x. now rewrite <- c24.
      + intros [H|(x & I & H)]; [discriminate|]. exists x. now rewrite c24. }
  assert (B : match ns with [] => true | _ => existsb (matches p) ns end = true <->
              (ns = [] \/ exists q ts, In q ns /\ Lex q ts /\ Matches ts p)).
  { destruct ns as [|s ns].
    - split; auto.
    - rewrite existsb_exists. split.
      + intros (x & I & H). apply matches_iff in H. destruct H as (ts & H). right. exists x, ts. tauto.
      + intros [H|(x & ts & I & H)]; [discriminate|]. exists x. rewrite matches_iff. eauto. }
  now rewrite A, B.
Qed.

Lemma ctraverse_ok {A B} (f : A -> cres B) (R : A -> B -> Prop) l :
  (forall a, In a l -> exists b, f a = COk b /\ R a b) -> exists bs, ctraverse f l = COk bs /\ Forall2 R l bs.
Proof.
  induction l as [|a l IH]; intros H.
  - exists []. split; [reflexivity|constructor].
  - destruct (H a (or_introl eq_refl)) as (b & E & Hb). destruct IH as (bs & E' & H'); [intros; apply H; now right|].
    exists (b :: bs). cbn [ctraverse]. rewrite E. cbn [cbind]. rewrite E'. split; [reflexivity|now constructor].
Qed.
Lemma filter_subseq {A} (f : A -> bool) l : Subseq (filter f l) l.
Proof. induction l as [|a l IH]; simpl; [constructor|]. destruct (f a); now constructor. Qed.
Lemma subseq_trans {A} (a b c : list A) : Subseq a b -> Subseq b c -> Subseq a c.
Proof.
  intros H K. revert a H. induction K; intros a0 H; auto.
  - inversion H; subst; [apply Sub_take|apply Sub_skip]; auto.
  - apply Sub_skip. auto.
Qed.

Section PCli.
Variable cval : Type.
Variable ctext : cval -> str.
Variable addr : nat -> nat.
Variable order : list str.
Variable regex : str -> option (str -> bool).
Variable diags : bool.
Variable live : nat -> bool.
Variable g : nlg cval.
Hypothesis M : Mirror (lg g).
Hypothesis F : FilesKnown cval g.
Notation nl := (nl_of cval g).
Notation run := (run cval ctext addr order regex diags live).

Lemma named_path n p : Named cval g n p <-> In n (gnodes (lg g)) /\ path_of cval g n = Some p.
Proof.
  unfold Named, path_of, data_path. destruct (lnode g n); split; intros [H1 H2]; split; auto; try congruence; destruct H2.
Qed.
Lemma loc_cell_ok n : In n (gnodes (lg g)) -> exists t, loc_cell cval g n = COk t /\ LocCell cval g n t.
Proof.
  intros I. unfold loc_cell, LocCell.
  assert (E : getLocation cval (lnode g n) = data_loc cval (lnode g n)) by (destruct (lnode g n); reflexivity).
  rewrite E. destruct (data_loc cval (lnode g n)) as [l|] eqn:L.
  - destruct (loc_known cval g l) as (t & Et & Lt); [now apply (proj1 F n)|]. exists t. now rewrite Et.
  - exists []. auto.
Qed.
Lemma name_row_ok n p : Named cval g n p -> exists r, name_row cval g n p = COk r /\ NameRow cval g n r.
Proof.
  intros N. destruct (loc_cell_ok n) as (t & E & L); [apply N|]. unfold name_row. rewrite E. cbn [cbind].
  eexists. split; [reflexivity|]. exists p, t. auto.
Qed.
Lemma require_spec what x :
  (exists n, require cval g what x = COk n /\ First cval g x n) \/
  (require cval g what x = CMsg (what ++ lit ": " ++ x) /\ forall n, ~ Named cval g n x).
Proof.
  unfold require, the_index, not_found. pose proof (lookup_fresh nl x) as L. destruct (lookup_idx (mk_index nl) x) as [n|].
  - left. exists n. split; auto. destruct L as (l1 & l2 & E & P & Q). exists l1, l2. split; [exact E|].
    change (npath (ninf nl n)) with (path_of cval g n) in P. split.
    + apply named_path. split; auto. change (gnodes (ng nl)) with (gnodes (lg g)) in E. rewrite E. apply in_elt.
    + intros m Hm N. apply named_path in N. apply (Q m Hm). apply N.
  - right. split; auto. intros n N. apply named_path in N. apply (L n); apply N.
Qed.
Lemma first_in x n : First cval g x n -> In n (gnodes (lg g)).
Proof. intros (l1 & l2 & _ & N & _). apply N. Qed.
Lemma first_unique x a b : First cval g x a -> First cval g x b -> a = b.
Proof.
  intros (l1 & l2 & E & N & Q) (m1 & m2 & E' & N' & Q'). rewrite E in E'. revert m1 E' Q'. clear E.
  induction l1 as [|c l1 IH]; intros [|d m1] E' Q'; simpl in E'.
  - congruence.
  - injection E' as -> _. exfalso. apply (Q' d); [now left|exact N].
  - injection E' as -> _. exfalso. apply (Q b); [now left|exact N'].
  - injection E' as -> E'. apply IH with m1; auto.
    + intros m Hm. apply Q. now right.
    + intros m Hm. apply Q'. now right.
Qed.

(** ** Registers *)
Lemma registers_ok o : given (o_registers o) = true -> exists ns t,
  run g o = COk (OTable [lit "Name"; lit "Location"] t) /\ Forall2 (NameRow cval g) ns t /\
  Subseq ns (gnodes (lg g)) /\
  forall n, In n ns <-> Register cval g n /\ exists p, Named cval g n p /\ Passes (o_scopes o) (o_names o) p.
Proof.
  intros G. unfold M_Cli.run.
  assert (A : given (o_registers (alias o)) = true /\ o_scopes (alias o) = o_scopes o /\ o_names (alias o) = o_names o).
  { unfold alias. destruct (_ && _); [auto|]. destruct (_ && _); auto. }
  unfold dispatch. destruct A as (-> & As & An). unfold run_registers. rewrite As, An.
  set (st := fun n => match data_kind cval (lnode g n) with KState => true | _ => false end).
  set (l := filter _ (filter st _)).
  assert (L : forall n, In n l <-> Register cval g n /\ exists p, Named cval g n p /\ Passes (o_scopes o) (o_names o) p).
  { intros n. subst l. rewrite filter_In, filter_In, passes_iff. unfold st, Register, path_of, Named.
    destruct (lnode g n); cbn [data_kind data_path value_or]; split;
      try (intros ((_ & H) & _); discriminate); try (intros ((_ & (? & ? & ? & ? & H)) & _); discriminate).
    - intros ((I & _) & P). split; [split; eauto|]. eauto.
    - intros ((I & _) & (p & (_ & ->) & P)). auto. }
  destruct (ctraverse_ok (fun n => name_row cval g n (value_or (path_of cval g n) [])) (NameRow cval g) l) as (t & E & Ft).
  - intros n I. apply L in I. destruct I as (_ & p & N & _). destruct (name_row_ok n p N) as (r & Er & Hr).
    apply named_path in N. destruct N as [_ ->]. eauto.
  - rewrite E. exists l, t. split; [reflexivity|]. split; auto. split; auto.
    eapply subseq_trans; apply filter_subseq.
Qed.

(** ** Cones *)
Lemma cone_ok (fan : netlist -> nat -> option (list nat)) (R : nat -> nat -> Prop) o x :
  (forall n, In n (gnodes (lg g)) -> exists l, fan nl n = Some l /\ NoDup l /\ hd_error l = Some n /\ forall m, In m l <-> Reach R n m) ->
  (forall a b, In a (gnodes (lg g)) -> R a b -> In b (gnodes (lg g))) ->
  (exists n ns t, First cval g x n /\ run_cone cval fan g o x = COk (OTable [lit "Name"; lit "Location"] t) /\
     Forall2 (NameRow cval g) ns t /\ NoDup ns /\
     forall m, In m ns <-> Reach R n m /\ exists p, Named cval g m p /\ Passes (o_scopes o) (o_names o) p) \/
  (run_cone cval fan g o x = CMsg (lit "could not find node: " ++ x) /\ forall n, ~ Named cval g n x).
Proof.
  intros Fan In_. unfold run_cone, requireNode. destruct (require_spec (lit "could not find node") x) as [(n & -> & Fn)|[-> N]];
    [left|right; auto]. cbn [cbind].
  destruct (Fan n (first_in _ _ Fn)) as (l & -> & ND & _ & HL). cbn [of_option cbind].
  set (l' := filter _ l).
  assert (RI : forall m, Reach R n m -> In m (gnodes (lg g))).
  { intros m Hm. induction Hm; eauto. apply (first_in _ _ Fn). }
  assert (L : forall m, In m l' <-> Reach R n m /\ exists p, Named cval g m p /\ Passes (o_scopes o) (o_names o) p).
  { intros m. subst l'. rewrite filter_In, HL. destruct (path_of cval g m) as [p|] eqn:P.
    - rewrite passes_iff. split.
      + intros [Hm Hp]. split; auto. exists p. split; auto. apply named_path. auto.
      + intros (Hm & q & N & Hq). apply named_path in N. destruct N as [_ N]. rewrite P in N. injection N as <-. auto.
    - split; [intros [_ H]; discriminate|]. intros (_ & q & N & _). apply named_path in N. destruct N as [_ N]. congruence. }
  destruct (ctraverse_ok (fun m => name_row cval g m (value_or (path_of cval g m) [])) (NameRow cval g) l') as (t & E & Ft).
  - intros m I. apply L in I. destruct I as (_ & p & N & _). destruct (name_row_ok m p N) as (r & Er & Hr).
    apply named_path in N. destruct N as [_ ->]. eauto.
  - rewrite E. exists n, l', t. split; auto. split; [reflexivity|]. split; auto. split; auto. subst l'. now apply NoDup_filter.
Qed.

(** ** Finding *)
Lemma NoDup_flat_map {A B} (f : A -> list B) l : NoDup l -> (forall a, In a l -> NoDup (f a)) ->
  (forall a b x, In a l -> In b l -> In x (f a) -> In x (f b) -> a = b) -> NoDup (flat_map f l).
Proof.
  intros ND. induction ND as [|a l H ND IH]; intros N D; simpl; [constructor|].
  apply NoDup_app_intro.
  - apply N. now left.
  - apply IH; [intros; apply N; now right|]. intros; eapply D; eauto; now right.
  - intros x H1 H2. apply in_flat_map in H2. destruct H2 as (b & Hb & Hx). apply H.
    rewrite (D a b x); auto; [now left|now right].
Qed.
Lemma idx_get_in x n : In n (idx_get (the_index cval g) x) <-> Named cval g n x.
Proof.
  unfold the_index. rewrite idx_get_mk, filter_In, named_path. change (gnodes (ng nl)) with (gnodes (lg g)).
  change (npath (ninf nl n)) with (path_of cval g n). destruct (path_of cval g n) as [p|].
  - rewrite str_eqb_eq. split; intros [H1 H2]; split; auto; congruence.
  - split; intros [_ H]; discriminate.
Qed.
Lemma idx_get_nodup x : NoDup (idx_get (the_index cval g) x).
Proof. unfold the_index. rewrite idx_get_mk. apply NoDup_filter. apply M. Qed.
Lemma find_by_spec test : Keys cval g order ->
  NoDup (find_by order (the_index cval g) test) /\
  forall n, In n (find_by order (the_index cval g) test) <-> exists p, Named cval g n p /\ test p = true.
Proof.
  intros [ND K]. unfold find_by. split.
  - apply NoDup_flat_map; auto.
    + intros p _. destruct (test p); [apply idx_get_nodup|constructor].
    + intros p q n _ _ Hp Hq. destruct (test p); [|destruct Hp]. destruct (test q); [|destruct Hq].
      apply idx_get_in in Hp, Hq. apply named_path in Hp, Hq. destruct Hp as [_ Hp], Hq as [_ Hq]. congruence.
  - intros n. rewrite in_flat_map. split.
    + intros (p & Ip & H). destruct (test p) eqn:E; [|destruct H]. apply idx_get_in in H. eauto.
    + intros (p & N & E). exists p. split; [apply K; eauto|]. rewrite E. now apply idx_get_in.
Qed.
Lemma found_ok o test : Keys cval g order -> exists ns t,
  run_found cval g o (find_by order (the_index cval g) test) = COk (OTable [lit "Name"; lit "Location"] t) /\
  Forall2 (NameRow cval g) ns t /\ NoDup ns /\
  forall n, In n ns <-> exists p, Named cval g n p /\ test p = true /\ Passes (o_scopes o) (o_names o) p.
Proof.
  intros K. destruct (find_by_spec test K) as [ND HI]. unfold run_found. set (l := filter _ _).
  assert (L : forall n, In n l <-> exists p, Named cval g n p /\ test p = true /\ Passes (o_scopes o) (o_names o) p).
  { intros n. subst l. rewrite filter_In, HI, passes_iff. split.
    - intros ((p & N & T) & P). exists p. split; auto. split; auto. apply named_path in N. destruct N as [_ N].
      now rewrite N in P.
    - intros (p & N & T & P). split; [eauto|]. apply named_path in N. destruct N as [_ ->]. exact P. }
  destruct (ctraverse_ok (fun n => name_row cval g n (value_or (path_of cval g n) (lit "(unnamed)"))) (NameRow cval g) l) as (t & E & Ft).
  - intros n I. apply L in I. destruct I as (p & N & _). destruct (name_row_ok n p N) as (r & Er & Hr).
    apply named_path in N. destruct N as [_ ->]. eauto.
  - rewrite E. exists l, t. split; [reflexivity|]. split; auto. split; auto. subst l. now apply NoDup_filter.
Qed.

(** ** Sensitivity *)
Lemma add_new_spec l : forall acc, NoDup acc -> NoDup (fold_left add_new l acc) /\
  forall x, In x (fold_left add_new l acc) <-> In x acc \/ In x l.
Proof.
  induction l as [|a l IH]; intros acc ND; simpl; [split; auto; tauto|].
  assert (B : existsb (fun x => sens_eqb x a) acc = true <-> In a acc).
  { rewrite existsb_exists. split.
    - intros (x & I & E). apply sens_eqb_eq in E. now subst.
    - intros I. exists a. split; auto. now apply sens_eqb_eq. }
  unfold add_new at 2 4. destruct (existsb _ _) eqn:E.
  - destruct (IH acc ND) as [A C]. split; auto. intros x. rewrite C. apply proj1 in B. specialize (B eq_refl).
    split; [tauto|]. intros [H|[<-|H]]; auto.
  - assert (N : ~ In a acc) by (intros I; apply B in I; discriminate).
    destruct (IH (acc ++ [a])) as [A C].
    + apply NoDup_app_intro; auto; [repeat constructor; intros []|]. intros x Hx [<-|[]]. auto.
    + split; auto. intros x. rewrite C, in_app_iff. simpl. tauto.
Qed.
Lemma gather_spec nodes : (forall n, In n nodes -> In n (gnodes (lg g))) -> forall acc, NoDup acc ->
  exists l, gather cval g nodes acc = COk l /\ NoDup l /\
    forall s k, In (s, k) l <-> In (s, k) acc \/ exists n, In n nodes /\ Gates nl n s k.
Proof.
  induction nodes as [|n nodes IH]; intros I acc ND; cbn [gather].
  - exists acc. split; [reflexivity|]. split; auto. intros s k. split; auto. intros [H|(n & [] & _)]. exact H.
  - destruct (c20 nl n M (I n (or_introl eq_refl))) as (res & E & _ & H1 & H2). rewrite E. cbn [of_option cbind].
    destruct (add_new_spec res acc ND) as [A B].
    destruct (IH (fun m Hm => I m (or_intror Hm)) _ A) as (l & El & NDl & Hl). exists l. split; auto. split; auto.
    assert (HG : forall s k, In (s, k) res <-> Gates nl n s k).
    { intros s k. unfold Gates. destruct (kind_eqb (nkind (ninf nl n)) KState) eqn:Ek.
      - apply kind_eqb_eq in Ek. rewrite (H1 Ek). tauto.
      - assert (Nk : nkind (ninf nl n) <> KState) by (intros X; apply kind_eqb_eq in X; congruence).
        rewrite (H2 Nk). tauto. }
    intros s k. rewrite Hl, B, HG. split.
    + intros [[H|H]|(m & Hm & H)]; auto; right; [exists n; split; auto; now left|exists m; split; auto; now right].
    + intros [H|(m & [<-|Hm] & H)]; auto. right. eauto.
Qed.
Lemma clocks_in n s k : Clocks nl n s k -> In s (gnodes (lg g)).
Proof. intros (e & I & <- & _). apply (mir_in _ M _ _ I). Qed.
Lemma gates_in n s k : Gates nl n s k -> In s (gnodes (lg g)).
Proof. intros [[_ H]|[_ (u & st & _ & _ & _ & H)]]; eauto using clocks_in. Qed.
Lemma sens_ok o x : Keys cval g order ->
  (exists ss t, run_sens cval order g o x = COk (OTable [lit "Name"; lit "Edge"; lit "Location"] t) /\
     Forall2 (SensRow cval g) ss t /\ NoDup ss /\
     forall s k, In (s, k) ss <->
       (exists n q ts, Named cval g n q /\ Lex x ts /\ Matches ts q /\ Gates nl n s k) /\
       (exists p, (Named cval g s p \/ (Unnamed cval g s /\ p = [])) /\ Passes (o_scopes o) (o_names o) p)) \/
  (run_sens cval order g o x = CMsg (lit "could not find node: " ++ x) /\
   forall n q ts, Named cval g n q -> Lex x ts -> ~ Matches ts q).
Proof.
  intros K. destruct (find_by_spec (fun name => matches name x) K) as [ND HI]. unfold run_sens, findNodes.
  set (ns := find_by _ _ _) in *. destruct ns as [|n0 ns0] eqn:En.
  - right. split; [reflexivity|]. intros n q ts N L Mt. assert (I : In n []); [|destruct I]. apply HI. exists q. split; auto.
    apply matches_iff. eauto.
  - left. rewrite <- En in *. clear n0 ns0 En.
    destruct (gather_spec ns) with (acc := @nil sens) as (l & El & NDl & Hl).
    + intros n Hn. apply HI in Hn. destruct Hn as (p & N & _). apply N.
    + constructor.
    + rewrite El. cbn [cbind]. match goal with |- context [filter ?f l] => set (l' := filter f l) end.
      assert (SI : forall s k, In (s, k) l -> In s (gnodes (lg g))).
      { intros s k H. apply Hl in H. destruct H as [[]|(n & _ & H)]. eapply gates_in; eauto. }
      destruct (ctraverse_ok (fun s => cbind (loc_cell cval g (fst s)) (fun t =>
               COk [value_or (path_of cval g (fst s)) (lit "(unnamed)"); edge_text (snd s); t])) (SensRow cval g) l') as (t & E & Ft).
      * intros [s k] H. apply filter_In in H. destruct H as [H _]. cbn [fst snd].
        destruct (loc_cell_ok s (SI _ _ H)) as (t & -> & Lt). cbn [cbind]. eexists. split; [reflexivity|].
        exists (value_or (path_of cval g s) (lit "(unnamed)")), t. cbn [fst snd]. split; [|split; [exact Lt|destruct k; reflexivity]].
        destruct (path_of cval g s) as [p|] eqn:P; cbn [value_or].
        -- left. apply named_path. eauto.
        -- right. split; auto. intros p N. apply named_path in N. destruct N; congruence.
      * rewrite E. exists l', t. split; [reflexivity|]. split; auto. split; [now apply NoDup_filter|].
        intros s k. subst l'. rewrite filter_In, passes_iff, Hl. cbn [fst].
        assert (A : ((exists n, In n ns /\ Gates nl n s k) <-> exists n q ts, Named cval g n q /\ Lex x ts /\ Matches ts q /\ Gates nl n s k)).
        { split.
          - intros (n & Hn & G). apply HI in Hn. destruct Hn as (q & N & Mq). apply matches_iff in Mq. destruct Mq as (ts & L & Mt).
            exists n, q, ts. auto.
          - intros (n & q & ts & N & L & Mt & G). exists n. split; auto. apply HI. exists q. split; auto. apply matches_iff. eauto. }
        rewrite <- A. cbn [In]. split.
        -- intros [[[]|G] P]. split; auto. destruct G as (n & Hn & G). pose proof (gates_in _ _ _ G) as Is.
           destruct (path_of cval g s) as [p|] eqn:Ps; cbn [value_or] in P.
           ++ exists p. split; auto. left. apply named_path. auto.
           ++ exists []. split; auto. right. split; auto. intros p N. apply named_path in N. destruct N; congruence.
        -- intros (G & p & [N|[N ->]] & P).
           ++ apply named_path in N. destruct N as [_ ->]. auto.
           ++ split; auto. destruct G as (n & Hn & G). pose proof (gates_in _ _ _ G) as Is.
              destruct (path_of cval g s) as [q|] eqn:Ps; cbn [value_or]; auto.
              destruct (N q). apply named_path. auto.
Qed.
End PCli.
