(** Proofs about the Python analyses. *)
From Coq Require Import Ascii String Sorted Permutation.
From Verif Require Import Base M_Graph S_Graph S_Reach M_Range M_Netlist S_Netlist M_Text M_Serial M_Path M_Query M_Report M_Py
  S_Query S_Cli S_Py P_Path P_Query P_Py.
Notation length := List.length.

(** * Collecting into a dict *)
Section Collect.
Context {K V : Type}.
Variable eqb : K -> K -> bool.
Hypothesis eqb_eq : forall a b, eqb a b = true <-> a = b.
(** [add v l]: the collection with the element added. *)
Variable add : list V -> V -> list V.
Hypothesis add_in : forall l v w, In w (add l v) <-> In w l \/ w = v.
Definition collect (items : list (K * V)) (d : list (K * list V)) : list (K * list V) :=
  fold_left (fun d kv => dict_upd eqb [] (fun l => add l (snd kv)) (fst kv) d) items d.
Record collected (items : list (K * V)) (d : list (K * list V)) : Prop := {
  co_keys : NoDup (map fst d);
  co_key : forall k, In k (map fst d) <-> exists v, In (k, v) items;
  co_val : forall k l, In (k, l) d -> forall v, In v l <-> In (k, v) items }.
Lemma collected_nil : collected [] [].
Proof. split; cbn; [constructor| |intros k l []]. intros k. split; [intros []|intros (v & [])]. Qed.
Lemma collected_add items d k v : collected items d -> collected (items ++ [(k, v)]) (dict_upd eqb [] (fun l => add l v) k d).
Proof.
  intros [N Ky Vl]. split.
  - now apply upd_nodup.
  - intros x. rewrite (upd_keys eqb eqb_eq), Ky. split.
    + intros [(w & I)| ->]; [exists w|exists v]; apply in_or_app; cbn; auto.
    + intros (w & I). apply in_app_or in I. destruct I as [I|[[= <- <-]|[]]]; eauto.
  - intros x l I w. apply (upd_in eqb eqb_eq) in I; [|exact N]. rewrite in_app_iff. cbn. destruct I as [[Ne I]|[-> [(l' & I & ->)|[Ni ->]]]].
    + rewrite (Vl _ _ I). intuition congruence.
    + rewrite add_in, (Vl _ _ I). intuition congruence.
    + rewrite add_in. cbn. split; [intros [[]|]; right; left; congruence|]. intros [I|[[= <-]|[]]]; [|now right].
      exfalso. apply Ni, Ky. eauto.
Qed.
Lemma collect_spec : forall items pre d, collected pre d -> collected (pre ++ items) (collect items d).
Proof.
  induction items as [|[k v] items IH]; intros pre d H; cbn; [now rewrite app_nil_r|].
  replace (pre ++ (k, v) :: items) with ((pre ++ [(k, v)]) ++ items) by now rewrite <- app_assoc. now apply IH, collected_add.
Qed.
Lemma collect_app a b d : collect (a ++ b) d = collect b (collect a d).
Proof. unfold collect. now rewrite fold_left_app. Qed.
End Collect.
Arguments collected {K V} items d.

Section Py.
Variable cval : Type.
Variable ctext : cval -> str.
Variable g : nlg cval.
Hypothesis W : WF (nl_of cval g).
Notation nl := (nl_of cval g).

(** * Texts of nodes *)
Lemma kind_text d t : KindText cval d t <-> t = nodeKindToString (data_kind cval d).
Proof. split; [intros []; reflexivity|]. intros ->. destruct d; constructor. Qed.
Lemma named_py d : named_as cval d = match py_path cval d, py_name cval d with Some p, Some a => Some (p, a) | _, _ => None end.
Proof. destruct d; reflexivity. Qed.
Lemma path_name d : (py_path cval d = None <-> py_name cval d = None).
Proof. destruct d; cbn; split; congruence. Qed.
Definition shown (n : nat) : bool * str :=
  match truthy (py_path cval (lnode g n)) with
  | Some p => (true, p)
  | None => match truthy (py_name cval (lnode g n)) with
            | Some s => (true, s)
            | None => (false, kind_hash cval g n)
            end
  end.
Lemma shown_iff n b t : Shown cval g n b t <-> shown n = (b, t).
Proof.
  unfold shown. split.
  - intros [p a E Np|a E Na|k E Kt].
    + rewrite named_py in E. destruct (py_path cval (lnode g n)) as [q|]; [|discriminate]. destruct (py_name cval (lnode g n)); [|discriminate].
      injection E as -> ->. destruct p; [congruence|reflexivity].
    + rewrite named_py in E. destruct (py_path cval (lnode g n)) as [q|]; [|discriminate]. destruct (py_name cval (lnode g n)); [|discriminate].
      injection E as -> ->. cbn. destruct a; [congruence|reflexivity].
    + apply kind_text in Kt. subst k. rewrite named_py in E. assert (Q := path_name (lnode g n)).
      destruct (py_path cval (lnode g n)) as [q|], (py_name cval (lnode g n)) as [a|]; destruct E as [E|E]; try discriminate.
      * injection E as -> ->. reflexivity.
      * destruct Q as [_ Q]. discriminate (Q eq_refl).
      * destruct Q as [Q _]. discriminate (Q eq_refl).
      * reflexivity.
  - assert (Q := named_py (lnode g n)). assert (Q' := path_name (lnode g n)).
    destruct (py_path cval (lnode g n)) as [[|c p]|]; cbn [truthy].
    + destruct (py_name cval (lnode g n)) as [[|c a]|]; cbn [truthy]; intros [= <- <-].
      * apply sh_id; [now right|now apply kind_text].
      * apply sh_name; [exact Q|discriminate].
      * destruct Q' as [_ Q']. discriminate (Q' eq_refl).
    + intros [= <- <-]. destruct (py_name cval (lnode g n)) as [a|]; [|destruct Q' as [_ Q']; discriminate (Q' eq_refl)].
      eapply sh_path; [exact Q|discriminate].
    + destruct (py_name cval (lnode g n)) as [a|]; [destruct Q' as [Q' _]; discriminate (Q' eq_refl)|]. cbn. intros [= <- <-].
      apply sh_id; [now left|now apply kind_text].
Qed.
Lemma clock_text n t : ClockText cval g n t <-> t = source_path cval g n.
Proof.
  assert (E : source_path cval g n = if fst (shown n) then snd (shown n) else lit "<" ++ snd (shown n) ++ lit ">").
  { unfold source_path, shown. destruct (truthy (py_path _ _)); [reflexivity|]. destruct (truthy (py_name _ _)); reflexivity. }
  rewrite E. unfold ClockText. destruct (shown n) as [b u] eqn:S. cbn [fst snd]. split.
  - intros [H|(v & H & ->)]; apply shown_iff in H; rewrite S in H; injection H as -> ->; reflexivity.
  - intros ->. destruct b; [left; now apply shown_iff|]. right. exists u. split; [now apply shown_iff|reflexivity].
Qed.
Lemma tag_text n t : Tag cval g n t <-> t = describe cval g n.
Proof.
  assert (E : describe cval g n = if fst (shown n) then nodeKindToString (data_kind cval (lnode g n)) ++ lit "(" ++ snd (shown n) ++ lit ")" else snd (shown n)).
  { unfold describe, shown. destruct (truthy (py_path _ _)); [reflexivity|]. destruct (truthy (py_name _ _)); reflexivity. }
  rewrite E. unfold Tag. destruct (shown n) as [b u] eqn:S. cbn [fst snd]. split.
  - intros [(v & k & H & Hk & ->)|H]; apply shown_iff in H; rewrite S in H; injection H as -> ->; [|reflexivity]. apply kind_text in Hk. now subst.
  - intros ->. destruct b; [left|right; now apply shown_iff]. exists u, (nodeKindToString (data_kind cval (lnode g n))).
    split; [now apply shown_iff|]. split; [now apply kind_text|reflexivity].
Qed.
Lemma edge_text k t : EdgeText k t <-> t = edge_name k.
Proof. split; [intros []; reflexivity|]. intros ->. destruct k; constructor. Qed.

(** * Constant-driven sinks *)
Lemma const_kind c : nkind (ninf nl c) = KConstant <-> exists v w l, lnode g c = DConstant v w l.
Proof. cbn. destruct (lnode g c); cbn; split; try discriminate; try (intros (v' & w' & l' & E); discriminate); eauto. Qed.
Lemma ties n : In n (gnodes (lg g)) -> exists cs, getConstantDrivers nl n = Some cs /\
  forall x, In x (map (const_value cval ctext g) cs) <-> exists c, Tied cval ctext g n c x.
Proof.
  intros I. destruct (c21 nl n W I) as (cs & E & _ & H1 & H2). exists cs. split; [exact E|]. intros x. rewrite in_map_iff. split.
  - intros (c & <- & Ic). assert (Ns : ~ Source cval g n) by (intros S; rewrite (H1 S) in Ic; destruct Ic).
    apply (H2 Ns) in Ic. destruct Ic as (Ne & R & Kc). exists c. split; [exact Ns|]. split; [exact Ne|]. split; [exact R|].
    apply const_kind in Kc. destruct Kc as (v & w & l & Ec). exists v, w, l. split; [exact Ec|]. unfold const_value. now rewrite Ec.
  - intros (c & Ns & Ne & R & v & w & l & Ec & ->). exists c. split; [unfold const_value; now rewrite Ec|].
    apply (H2 Ns). split; [exact Ne|]. split; [exact R|]. apply const_kind. eauto.
Qed.
Lemma sink_iff n p : Sink cval g n p <-> In n (gnodes (lg g)) /\ sink_path cval (lnode g n) = Some p.
Proof.
  unfold Sink. split.
  - intros [I [(a & l & b & E)|(a & l & b & E)]]; rewrite E; auto.
  - intros [I E]. split; [exact I|]. destruct (lnode g n) as [a q l d b|a q l b|a q l b| | | | | |]; cbn in E; try discriminate.
    + destruct d; try discriminate. injection E as ->. right. eauto.
    + injection E as ->. left. eauto.
Qed.
Definition sink_items (n : nat) : list (str * str) :=
  match sink_path cval (lnode g n), getConstantDrivers nl n with
  | Some p, Some cs => map (fun c => (p, const_value cval ctext g c)) cs
  | _, _ => []
  end.
Lemma union_collect p : forall l d, l <> [] ->
  dict_upd str_eqb [] (fun s => fold_left set_add l s) p d = collect str_eqb set_add (map (pair p) l) d.
Proof.
  assert (One : forall (f h : list str -> list str) d, dict_upd str_eqb [] h p (dict_upd str_eqb [] f p d) = dict_upd str_eqb [] (fun s => h (f s)) p d).
  { intros f h. assert (R : str_eqb p p = true) by now apply str_eqb_eq. induction d as [|[k v] d IH]; cbn; [now rewrite R|].
    destruct (str_eqb p k) eqn:E; cbn; rewrite E; [reflexivity|]. now rewrite IH. }
  induction l as [|x l IH]; intros d Ne; [congruence|]. destruct l as [|y l]; [reflexivity|].
  cbn [map]. unfold collect. cbn [fold_left fst snd]. fold (collect str_eqb set_add (map (pair p) l)).
  specialize (IH (dict_upd str_eqb [] (fun s => set_add s x) p d)). unfold collect in IH. cbn [map fold_left fst snd] in IH.
  etransitivity; [|apply IH; discriminate]. rewrite One. reflexivity.
Qed.
Lemma sinks_items : forall ns d, (forall n, In n ns -> In n (gnodes (lg g))) ->
  sinks_loop cval ctext g ns d = Some (collect str_eqb set_add (flat_map sink_items ns) d).
Proof.
  induction ns as [|n ns IH]; intros d H; [reflexivity|]. cbn [sinks_loop flat_map]. rewrite collect_app. unfold sink_items at 2.
  destruct (sink_path cval (lnode g n)) as [p|]; [|rewrite IH; [reflexivity|intros; apply H; now right]].
  destruct (ties n) as (cs & E & _); [apply H; now left|]. rewrite E. destruct cs as [|c cs].
  - rewrite IH; [reflexivity|intros; apply H; now right].
  - rewrite IH; [|intros; apply H; now right]. f_equal. f_equal. rewrite union_collect by discriminate.
    now rewrite map_map.
Qed.
Lemma sinks_spec : exists res, find_constant_driven_sinks cval ctext g = Some res /\
  StronglySorted TextLt (map fst res) /\
  (forall p, In p (map fst res) <-> exists n c x, Sink cval g n p /\ Tied cval ctext g n c x) /\
  (forall p vs, In (p, vs) res -> StronglySorted TextLt vs /\
     forall x, In x vs <-> exists n c, Sink cval g n p /\ Tied cval ctext g n c x).
Proof.
  unfold find_constant_driven_sinks. rewrite sinks_items by auto. cbn [option_map]. eexists. split; [reflexivity|].
  set (d := collect str_eqb set_add _ _).
  assert (C : collected ([] ++ flat_map sink_items (gnodes (lg g))) d).
  { apply collect_spec; [apply str_eqb_eq|intros; apply set_add_in|apply collected_nil]. }
  cbn [app] in C. destruct C as [N Ky Vl].
  assert (Nd : forall p vs, In (p, vs) d -> NoDup vs).
  { subst d. clear. assert (G : forall its d, (forall p vs, In (p, vs) d -> NoDup vs) -> forall p vs, In (p, vs) (collect str_eqb set_add its d) -> NoDup vs).
    { induction its as [|[k v] its IH]; intros d H; [exact H|]. cbn. apply IH. clear IH. intros p vs. cbn [fst snd].
      induction d as [|[k' w] d IHd]; cbn.
      - intros [[= <- <-]|[]]. constructor; [intros []|constructor].
      - destruct (str_eqb k k').
        + intros [[= <- <-]|I]; [apply set_add_nodup, (H k'); now left|apply (H p); now right].
        + intros [[= <- <-]|I]; [apply (H k'); now left|]. apply IHd; [intros; apply (H p0); now right|exact I]. }
    apply G. intros p vs []. }
  assert (It : forall p x, In (p, x) (flat_map sink_items (gnodes (lg g))) <-> exists n c, Sink cval g n p /\ Tied cval ctext g n c x).
  { intros p x. rewrite in_flat_map. split.
    - intros (n & In_ & I). unfold sink_items in I. destruct (sink_path cval (lnode g n)) as [q|] eqn:Eq; [|destruct I].
      destruct (ties n In_) as (cs & E & H). rewrite E in I. apply in_map_iff in I. destruct I as (c & [= <- <-] & Ic).
      destruct (proj1 (H _) (in_map _ _ _ Ic)) as (c' & T). exists n, c'. split; [now apply sink_iff|exact T].
    - intros (n & c & S & T). apply sink_iff in S. destruct S as [In_ Eq]. exists n. split; [exact In_|]. unfold sink_items. rewrite Eq.
      destruct (ties n In_) as (cs & E & H). rewrite E. apply in_map_iff. destruct (proj1 (in_map_iff _ _ _) (proj2 (H x) (ex_intro _ c T))) as (c' & <- & Ic).
      exists c'. auto. }
  split; [|split].
  - rewrite map_map. cbn [fst]. now apply keys_sorted.
  - intros p. rewrite map_map. cbn [fst]. assert (P := sorted_perm (fun x y : str * list str => str_leb (fst x) (fst y)) d).
    transitivity (In p (map fst d)); [split; apply Permutation_in; [symmetry|]; now apply Permutation_map|]. rewrite Ky. split.
    + intros (x & I). apply It in I. destruct I as (n & c & H). eauto.
    + intros (n & c & x & H). exists x. apply It. eauto.
  - intros p vs I. apply in_map_iff in I. destruct I as ([p' vs'] & [= <- <-] & I). apply sorted_in in I. split; [apply text_sorted; eauto|].
    intros x. rewrite (sorted_in str_leb), (Vl _ _ I). apply It.
Qed.

(** * Clock domains *)
Definition node_domains (n : nat) : list domain :=
  match getSensitivity nl n with
  | Some [] => [unclocked]
  | Some l => map (fun x => (source_path cval g (fst x), edge_name (snd x))) l
  | None => []
  end.
Definition domain_items (n : nat) : list (domain * str) :=
  match lnode g n with
  | DState _ p _ _ => map (fun k => (k, p)) (node_domains n)
  | _ => []
  end.
Definition append_one (l : list str) (s : str) : list str := l ++ [s].
Lemma domain_eqb_eq a b : domain_eqb a b = true <-> a = b.
Proof. unfold domain_eqb. rewrite andb_true_iff, !str_eqb_eq. destruct a, b; cbn. split; [intros [-> ->]; reflexivity|intros [= -> ->]; auto]. Qed.
Lemma node_domains_iff n a p l b : In n (gnodes (lg g)) -> lnode g n = DState a p l b ->
  (exists r, getSensitivity nl n = Some r) /\ forall c e, In (c, e) (node_domains n) <-> InDomain cval g n c e.
Proof.
  intros I E. assert (Ks : nkind (ninf nl n) = KState) by (cbn; now rewrite E).
  destruct (c20 nl n W I) as (r & Er & _ & H & _). specialize (H Ks). split; [eauto|]. intros c e. unfold node_domains. rewrite Er.
  unfold InDomain. destruct r as [|x r].
  - cbn. split.
    + intros [[= <- <-]|[]]. right. split; [|auto]. intros s k C. apply H in C. destruct C.
    + intros [(s & k & C & _)|(_ & -> & ->)]; [apply H in C; destruct C|]. now left.
  - rewrite in_map_iff. split.
    + intros ([s k] & [= <- <-] & J). left. exists s, k. split; [now apply H|]. split; [now apply clock_text|now apply edge_text].
    + intros [(s & k & C & Ct & Et)|(N & _)].
      * apply clock_text in Ct. apply edge_text in Et. subst. exists (s, k). split; [reflexivity|now apply H].
      * destruct x as [s k]. destruct (N s k). apply H. now left.
Qed.
Lemma domains_items : forall ns d, (forall n, In n ns -> In n (gnodes (lg g))) ->
  domains_loop cval g ns d = Some (collect domain_eqb append_one (flat_map domain_items ns) d).
Proof.
  induction ns as [|n ns IH]; intros d H; [reflexivity|]. cbn [domains_loop flat_map]. rewrite collect_app. unfold domain_items at 2.
  assert (Ih : forall d, domains_loop cval g ns d = Some (collect domain_eqb append_one (flat_map domain_items ns) d)) by (intros; apply IH; intros; apply H; now right).
  destruct (lnode g n) as [| |a p l b| | | | | |] eqn:E; try (rewrite Ih; reflexivity).
  destruct (node_domains_iff n a p l b) as [(r & Er) _]; [apply H; now left|exact E|]. unfold node_domains. rewrite Er.
  destruct r as [|x r]; rewrite Ih; [reflexivity|]. f_equal. f_equal. generalize (x :: r). clear. intros r. revert d.
  induction r as [|[s k] r IH]; intros d; [reflexivity|]. cbn. unfold collect in IH. rewrite IH. reflexivity.
Qed.
Lemma domains_spec : exists d, clock_domain_map cval g = Some d /\ NoDup (map fst d) /\
  (forall c e, In (c, e) (map fst d) <-> exists n p, Reg cval g n p /\ InDomain cval g n c e) /\
  (forall c e l, In (c, e, l) d -> forall p, In p l <-> exists n, Reg cval g n p /\ InDomain cval g n c e).
Proof.
  unfold clock_domain_map. rewrite domains_items by auto. eexists. split; [reflexivity|].
  set (d := collect domain_eqb append_one _ _).
  assert (C : collected ([] ++ flat_map domain_items (gnodes (lg g))) d).
  { apply collect_spec; [apply domain_eqb_eq| |apply collected_nil]. intros l v w. unfold append_one. rewrite in_app_iff. cbn. intuition congruence. }
  cbn [app] in C. destruct C as [N Ky Vl].
  assert (It : forall c e p, In (c, e, p) (flat_map domain_items (gnodes (lg g))) <-> exists n, Reg cval g n p /\ InDomain cval g n c e).
  { intros c e p. rewrite in_flat_map. split.
    - intros (n & I & J). unfold domain_items in J. destruct (lnode g n) as [| |a q l b| | | | | |] eqn:E; try destruct J.
      apply in_map_iff in J. destruct J as ([c' e'] & [= -> -> ->] & J). exists n. split; [split; [exact I|eauto]|].
      now apply (node_domains_iff n a p l b I E).
    - intros (n & [I (a & l & b & E)] & D). exists n. split; [exact I|]. unfold domain_items. rewrite E. apply in_map_iff. exists (c, e).
      split; [reflexivity|]. now apply (node_domains_iff n a p l b I E). }
  split; [exact N|]. split.
  - intros c e. rewrite Ky. split; [intros (p & I); apply It in I; destruct I as (n & H); eauto|]. intros (n & p & H). exists p. apply It. eauto.
  - intros c e l I p. rewrite (Vl _ _ I). apply It.
Qed.

(** * Undriven inputs *)
Lemma prefix_iff s : forall p r, starts_with s p = Some r <-> s = p ++ r.
Proof.
  induction s as [|c s IH]; intros [|d p] r; cbn.
  - split; congruence.
  - split; [discriminate|discriminate].
  - split; congruence.
  - destruct (ascii_dec d c) as [->|Ne]; [rewrite IH; split; congruence|]. split; [discriminate|congruence].
Qed.
Lemma under_iff top p : directly_under top p = true <-> TopPort top p.
Proof.
  unfold directly_under, TopPort. destruct (starts_with p (top ++ lit ".")) as [r|] eqn:E.
  - apply prefix_iff in E. rewrite <- app_assoc in E. rewrite negb_true_iff. split.
    + intros H. exists r. split; [exact E|]. intros I. apply not_true_iff_false in H. apply H. unfold has_dot. apply existsb_exists. exists "."%char.
      split; [exact I|reflexivity].
    + intros (r' & E' & N). rewrite E in E'. do 2 apply app_inv_head in E'. subst r'. apply not_true_iff_false. intros H. apply existsb_exists in H.
      destruct H as (c & I & D). destruct (ascii_dec c dot) as [->|]; [contradiction|discriminate].
  - split; [discriminate|]. intros (r & -> & _). rewrite app_assoc in E. assert (Q : starts_with ((top ++ lit ".") ++ r) (top ++ lit ".") = Some r) by now apply prefix_iff.
    congruence.
Qed.
Lemma undriven_iff top n p b : In n (gnodes (lg g)) -> (undriven_input cval g top n = Some (p, b) <-> Undriven cval g top n p b).
Proof.
  intros I. unfold undriven_input, Undriven. split.
  - destruct (lnode g n) as [a q l d r| | | | | | | |]; try discriminate. destruct d; try discriminate.
    destruct (directly_under top q) eqn:D; [discriminate|]. destruct (ins (nst (lg g) n)) eqn:E; [|discriminate]. intros [= -> ->].
    split; [exact I|]. split; [eauto|]. split; [|reflexivity]. intros T. apply under_iff in T. congruence.
  - intros (_ & (a & l & E) & T & N). rewrite E, N. destruct (directly_under top p) eqn:D; [|reflexivity]. apply under_iff in D. contradiction.
Qed.
Definition append_range (l : list (Z * Z)) (x : Z * Z) : list (Z * Z) := l ++ [x].
Definition range_items top (n : nat) : list (str * (Z * Z)) :=
  match undriven_input cval g top n with Some (p, b) => [(p, (lower b, upper b))] | None => [] end.
Lemma by_path_items top : by_path cval g top = collect str_eqb append_range (flat_map (range_items top) (gnodes (lg g))) [].
Proof.
  unfold by_path. generalize (gnodes (lg g)). intros ns. generalize (@nil (str * list (Z * Z))). induction ns as [|n ns IH]; intros d; [reflexivity|].
  cbn [fold_left flat_map]. rewrite collect_app, IH.
  change (range_items top n) with (match undriven_input cval g top n with Some (p, b) => [(p, (lower b, upper b))] | None => [] end). destruct (undriven_input cval g top n) as [[p b]|]; reflexivity.
Qed.
End Py.

(** * Merging ranges *)
Lemma pair_leb_total a b : pair_leb a b = true \/ pair_leb b a = true.
Proof. unfold pair_leb. rewrite !orb_true_iff, !andb_true_iff, !Z.ltb_lt, !Z.eqb_eq, !Z.leb_le. lia. Qed.
Lemma pair_leb_trans a b c : pair_leb a b = true -> pair_leb b c = true -> pair_leb a c = true.
Proof. unfold pair_leb. rewrite !orb_true_iff, !andb_true_iff, !Z.ltb_lt, !Z.eqb_eq, !Z.leb_le. lia. Qed.
Lemma merge_spec : forall l x, (fst x <= snd x)%Z -> StronglySorted (fun a b => pair_leb a b = true) l ->
  (forall y, In y l -> (fst x <= fst y <= snd y)%Z) ->
  Spaced (merge_ranges x l) /\ (exists b r, merge_ranges x l = (fst x, b) :: r) /\ forall i, Holds (merge_ranges x l) i <-> Holds (x :: l) i.
Proof.
  induction l as [|y l IH]; intros [a b] Lx S H; cbn [merge_ranges fst snd] in *.
  - split; [cbn; auto|]. split; [eauto|]. reflexivity.
  - inversion S as [|? ? S' F]; subst. rewrite Forall_forall in F. assert (Hy := H y (or_introl eq_refl)). destruct y as [c d]. cbn [fst snd] in *.
    destruct (Z.leb_spec c (b + 1)) as [L|L].
    + destruct (IH (a, Z.max b d)) as (A & (b' & r & B) & C); cbn [fst snd]; [lia|exact S'|intros z I; apply H; now right|].
      split; [exact A|]. split; [eauto|]. intros i. rewrite C. unfold Holds. split.
      * intros (u & v & [[= <- <-]|I] & Li); [|exists u, v; cbn; auto]. destruct (Z_le_dec i b); [exists a, b; cbn; auto with zarith|].
        exists c, d. cbn. split; [auto|lia].
      * intros (u & v & [[= <- <-]|[[= <- <-]|I]] & Li); [exists a, (Z.max b d)|exists a, (Z.max b d)|exists u, v]; cbn; (split; [auto|lia]).
    + destruct (IH (c, d)) as (A & (b' & r & B) & C); cbn [fst snd]; [lia|exact S'| |].
      { intros z I. assert (Hz := H z (or_intror I)). specialize (F z I). unfold pair_leb in F.
        rewrite orb_true_iff, andb_true_iff, Z.ltb_lt, Z.eqb_eq, Z.leb_le in F. cbn [fst snd] in F. lia. }
      split; [|split; [eauto|]].
      * cbn [Spaced]. split; [exact Lx|]. split; [rewrite B; cbn [fst]; lia|exact A].
      * intros i. unfold Holds in *. split.
        -- intros (u & v & [[= <- <-]|I] & Li); [exists a, b; cbn; auto|]. destruct (proj1 (C i)) as (u' & v' & J & Lj); [eauto|]. exists u', v'. split; [now right|exact Lj].
        -- intros (u & v & [[= <- <-]|I] & Li); [exists a, b; cbn; auto|]. destruct (proj2 (C i)) as (u' & v' & J & Lj); [eauto|]. exists u', v'. split; [now right|exact Lj].
Qed.
Lemma merged_spec l : (forall y, In y l -> (fst y <= snd y)%Z) ->
  Spaced (merged l) /\ (l <> [] -> merged l <> []) /\ forall i, Holds (merged l) i <-> Holds l i.
Proof.
  intros H. unfold merged. assert (P := sorted_perm pair_leb l). assert (S := sorted_sorted pair_leb pair_leb_total pair_leb_trans l).
  assert (Hs : forall i, Holds (sorted_by pair_leb l) i <-> Holds l i).
  { intros i. unfold Holds. split; intros (a & b & I & L); exists a, b; (split; [|exact L]); apply (sorted_in pair_leb); auto. }
  destruct (sorted_by pair_leb l) as [|x r] eqn:E.
  - split; [exact I|]. split; [|exact Hs]. intros Ne. apply Permutation_sym, Permutation_nil in P. contradiction.
  - assert (H' : forall y, In y (x :: r) -> (fst y <= snd y)%Z) by (intros y I; apply H; apply (Permutation_in (l := x :: r)); [now symmetry|exact I]).
    inversion S as [|? ? S' F]; subst. rewrite Forall_forall in F. destruct (merge_spec r x) as (A & (b & q & B) & C); [apply H'; now left|exact S'| |].
    + intros y I. split; [|apply H'; now right]. specialize (F y I). unfold pair_leb in F. rewrite orb_true_iff, andb_true_iff, Z.ltb_lt, Z.eqb_eq, Z.leb_le in F. lia.
    + split; [exact A|]. split; [rewrite B; discriminate|]. intros i. rewrite C. apply Hs.
Qed.

Section Py2.
Variable cval : Type.
Variable g : nlg cval.
Lemma undriven_spec top :
  let res := find_undriven_bit_ranges cval g top in
  StronglySorted TextLt (map fst res) /\
  (forall p, In p (map fst res) <-> exists n b, Undriven cval g top n p b) /\
  (forall p rs, In (p, rs) res -> Spaced rs /\ rs <> [] /\ forall i, Holds rs i <-> exists n b, Undriven cval g top n p b /\ InRange i b).
Proof.
  intros res. subst res. unfold find_undriven_bit_ranges. rewrite by_path_items. set (d := collect str_eqb append_range _ _).
  assert (C : collected ([] ++ flat_map (range_items cval g top) (gnodes (lg g))) d).
  { apply collect_spec; [apply str_eqb_eq| |apply collected_nil]. intros l v w. unfold append_range. rewrite in_app_iff. cbn. intuition congruence. }
  cbn [app] in C. destruct C as [N Ky Vl].
  assert (It : forall p x, In (p, x) (flat_map (range_items cval g top) (gnodes (lg g))) <-> exists n b, Undriven cval g top n p b /\ x = (lower b, upper b)).
  { intros p x. rewrite in_flat_map. split.
    - intros (n & I & J). unfold range_items in J. destruct (undriven_input cval g top n) as [[q b]|] eqn:E; [|destruct J].
      destruct J as [[= -> <-]|[]]. exists n, b. split; [now apply undriven_iff|reflexivity].
    - intros (n & b & U & ->). assert (I : In n (gnodes (lg g))) by apply U. exists n. split; [exact I|]. unfold range_items.
      rewrite (proj2 (undriven_iff cval g top n p b I) U). now left. }
  split; [|split].
  - rewrite map_map. cbn [fst]. now apply keys_sorted.
  - intros p. rewrite map_map. cbn [fst]. assert (P := sorted_perm (fun x y : str * list (Z * Z) => str_leb (fst x) (fst y)) d).
    transitivity (In p (map fst d)); [split; apply Permutation_in; [symmetry|]; now apply Permutation_map|]. rewrite Ky. split.
    + intros (x & I). apply It in I. destruct I as (n & b & U & _). eauto.
    + intros (n & b & U). exists (lower b, upper b). apply It. eauto.
  - intros p rs I. apply in_map_iff in I. destruct I as ([p' l] & [= <- <-] & I). apply sorted_in in I. specialize (Vl _ _ I).
    destruct (merged_spec l) as (A & B & C).
    { intros y J. apply Vl, It in J. destruct J as (n & b & _ & ->). cbn. unfold lower, upper. lia. }
    split; [exact A|]. split.
    + apply B. intros ->. apply (in_map fst) in I. apply Ky in I. destruct I as (v & J). apply Vl in J. destruct J.
    + intros i. rewrite C. unfold Holds. split.
      * intros (u & v & J & L). apply Vl, It in J. destruct J as (n & b & U & [= -> ->]). exists n, b. split; [exact U|].
        unfold InRange, lower, upper in *. lia.
      * intros (n & b & U & R). exists (lower b), (upper b). split; [apply Vl, It; eauto|]. unfold InRange, lower, upper in *. lia.
Qed.
End Py2.
