(** C64 and C84-C90: the analysis commands of the driver. *)
From Coq Require Import Ascii String.
From Verif Require Import Base M_Graph S_Graph P_Graph S_Reach M_Range M_Netlist S_Netlist M_Text S_Text P_Text
  M_Serial M_Path P_Path M_Query S_Query P_Query M_Cycle M_Dot S_Dot P_Dot M_Report S_Report P_Report M_Cli S_Cli P_Cli P_Cli2.
Notation length := List.length.

(** Options with the given end points and cones; the command among them. *)
Definition ends (o : options) (from to fanout fanin : option str) : options :=
  Opts (o_registers o) (o_loops o) (o_dot o) (o_find o) (o_findre o) fanout fanin
       (o_sens o) (o_const o) (o_drivers o) from to (o_scopes o) (o_names o).
Definition no_command (scopes names : list str) : options :=
  Opts None None None None None None None None None None None None scopes names.

(** A netlist for the examples: an input port split into two nodes of the same name, an
    assignment and a variable each, and a clocked register. *)
Definition cl : loc := Loc 0 1 1.
Definition cg (a : str) : nlg str :=
  NL [lit "a.sv"] [] (mk_graph 7 [(0, 2); (1, 3); (2, 4); (3, 5); (6, 5)])
     (fun n => nth n [DPort (lit "a") a cl DIn (Range 0 0)%Z; DPort (lit "a") a cl DIn (Range 1 1)%Z;
                      DAssignment cl; DAssignment cl; DVariable (lit "b") (lit "t.b") cl (Range 0 0)%Z;
                      DState (lit "q") (lit "t.q") cl (Range 0 0)%Z; DPort (lit "clk") (lit "t.clk") cl DIn (Range 0 0)%Z] DNone)
     (fun n => Z.of_nat (S n))
     (fun e => nth e [ED EKNone (Some 0) (Range 0 0)%Z false; ED EKNone (Some 0) (Range 1 1)%Z false;
                      ED EKNone (Some 1) (Range 0 0)%Z false; ED EKNone (Some 2) (Range 0 0)%Z false;
                      ED EKPos None (Range 0 0)%Z false] edge0)
     [Sym (lit "a") a cl; Sym (lit "b") (lit "t.b") cl; Sym (lit "q") (lit "t.q") cl].
Definition corder : list str := [lit "t.q"; lit "t.a"; lit "t.clk"; lit "t.b"].
Definition crun (g : nlg str) (o : options) : cres output :=
  run str (fun s => s) (fun n => n) corder (fun _ => None) false (fun _ => true) g o.
Definition at_ : str := lit "a.sv:1:1".
Lemma cg_mirror a : Mirror (lg (cg a)).
Proof. apply c01 with (thr := outEdgeIndexThreshold), mk_graph_reachable. Qed.
Lemma cg_files a : FilesKnown str (cg a).
Proof.
  assert (K : known_file str (cg a) cl).
  { eexists. eapply LT_file; [simpl; lia|reflexivity]. }
  split.
  - intros n l Hn. vm_compute in Hn. repeat destruct Hn as [<-|Hn]; try destruct Hn; cbn; intros E; injection E as <-; apply K.
  - intros s [<-|[<-|[<-|[]]]]; apply K.
Qed.
Lemma cg_keys : Keys str (cg (lit "t.a")) corder.
Proof.
  split.
  - unfold corder. repeat constructor; intros H; repeat (destruct H as [H|H]; [discriminate|]); destruct H.
  - intros p. split.
    + intros [<-|[<-|[<-|[<-|[]]]]]; [exists 5|exists 0|exists 6|exists 4]; (split; [vm_compute; tauto|reflexivity]).
    + intros (n & Hn & H). vm_compute in Hn. repeat destruct Hn as [<-|Hn]; try destruct Hn; cbn in H; subst; cbn; tauto.
Qed.

(** ** C64. A lone end point is the cone from or to it. *)
Section C64.
Variable cval : Type.
Variable ctext : cval -> str.
Variable addr : nat -> nat.
Variable order : list str.
Variable regex : str -> option (str -> bool).
Variable diags : bool.
Variable live : nat -> bool.
Let go := run cval ctext addr order regex diags live.
Lemma s64_from g o a : go g (ends o (Some a) None None None) = go g (ends o None None (Some a) None).
Proof. unfold go, run, alias, dispatch, run_dot. cbn. destruct (o_registers o), (o_loops o), (o_dot o); reflexivity. Qed.
Lemma s64_to g o a : go g (ends o None (Some a) None None) = go g (ends o None None None (Some a)).
Proof. unfold go, run, alias, dispatch, run_dot. cbn. destruct (o_registers o), (o_loops o), (o_dot o); reflexivity. Qed.
Lemma s64_fan_out g o f t i x : go g (ends o f t (Some x) i) = go g (ends o None None (Some x) None).
Proof.
  unfold go, run, alias, dispatch, run_dot. destruct f, t, i; cbn; destruct (o_registers o), (o_loops o), (o_dot o); reflexivity.
Qed.
Lemma s64_fan_in g o f t x : f = None \/ t <> None -> go g (ends o f t None (Some x)) = go g (ends o None None None (Some x)).
Proof.
  unfold go, run, alias, dispatch, run_dot. intros [->|H]; destruct t; try congruence; try destruct f; cbn;
    destruct (o_registers o), (o_loops o), (o_dot o); reflexivity.
Qed.
End C64.
Theorem c64_lone_from : forall cval ctext addr order regex diags live (g : nlg cval) o a,
  run cval ctext addr order regex diags live g (ends o (Some a) None None None) =
  run cval ctext addr order regex diags live g (ends o None None (Some a) None).
Proof. exact s64_from. Qed.
Print Assumptions c64_lone_from.
Theorem c64_lone_to : forall cval ctext addr order regex diags live (g : nlg cval) o b,
  run cval ctext addr order regex diags live g (ends o None (Some b) None None) =
  run cval ctext addr order regex diags live g (ends o None None None (Some b)).
Proof. exact s64_to. Qed.
Print Assumptions c64_lone_to.
(** An explicit cone takes precedence over the end points. *)
Theorem c64_fan_out_wins : forall cval ctext addr order regex diags live (g : nlg cval) o f t i x,
  run cval ctext addr order regex diags live g (ends o f t (Some x) i) =
  run cval ctext addr order regex diags live g (ends o None None (Some x) None).
Proof. exact s64_fan_out. Qed.
Print Assumptions c64_fan_out_wins.
Theorem c64_fan_in_wins_partial : forall cval ctext addr order regex diags live (g : nlg cval) o f t x, f = None \/ t <> None ->
  run cval ctext addr order regex diags live g (ends o f t None (Some x)) =
  run cval ctext addr order regex diags live g (ends o None None None (Some x)).
Proof. exact s64_fan_in. Qed.
Print Assumptions c64_fan_in_wins_partial.
(** But an explicit --fan-in loses against a lone --from. *)
Theorem c64_fan_in_wins_refuted : ~ (forall cval ctext addr order regex diags live (g : nlg cval) o f t x,
  run cval ctext addr order regex diags live g (ends o f t None (Some x)) =
  run cval ctext addr order regex diags live g (ends o None None None (Some x))).
Proof.
  intros H.
  specialize (H str (fun s => s) (fun n => n) corder (fun _ => None) false (fun _ => true) (cg (lit "t.a"))
                (no_command [] []) (Some (lit "t.a")) None (lit "t.q")).
  vm_compute in H. discriminate.
Qed.
Print Assumptions c64_fan_in_wins_refuted.
(** Then it is the fan-out of the other end that is listed. *)
Theorem c64_fan_in_ignored : forall cval ctext addr order regex diags live (g : nlg cval) o a x,
  run cval ctext addr order regex diags live g (ends o (Some a) None None (Some x)) =
  run cval ctext addr order regex diags live g (ends o None None (Some a) None).
Proof.
  intros. unfold run, alias, dispatch, run_dot. cbn. destruct (o_registers o), (o_loops o), (o_dot o); reflexivity.
Qed.
Print Assumptions c64_fan_in_ignored.
(** Both end points and nothing else: a path between the nodes looked up, or an error. *)
Theorem c64_both_path : forall cval ctext addr order regex diags live (g : nlg cval) scopes names a b, Mirror (lg g) ->
  let out := run cval ctext addr order regex diags live g (ends (no_command scopes names) (Some a) (Some b) None None) in
  (out = CMsg (lit "could not find start point: " ++ a) /\ forall n, ~ Named cval g n a) \/
  (out = CMsg (lit "could not find finish point: " ++ b) /\ forall n, ~ Named cval g n b) \/
  exists s e, First cval g a s /\ First cval g b e /\
   ((out = CMsg (lit "no path between " ++ a ++ lit " and " ++ b) /\ (s = e \/ ~ Reach1 (Conn (nl_of cval g)) s e)) \/
    exists p, hd_error p = Some s /\ last p s = e /\ NoDup p /\ Walk (Conn (nl_of cval g)) p /\ s <> e /\
      out = match reportPath cval g diags live p with ROk r => COk (OReports [r]) | _ => CBad end).
Proof. intros cval ctext addr order regex diags live g scopes names a b M. exact (run_path_spec cval diags live g M a b). Qed.
Print Assumptions c64_both_path.
Example c64_examples :
  crun (cg (lit "t.a")) (ends (no_command [] []) (Some (lit "t.a")) None None None) =
    COk (OTable [lit "Name"; lit "Location"] [[lit "t.a"; at_]; [lit "t.b"; at_]]) /\
  crun (cg (lit "t.a")) (ends (no_command [] []) None (Some (lit "t.b")) None None) =
    COk (OTable [lit "Name"; lit "Location"] [[lit "t.b"; at_]; [lit "t.a"; at_]]) /\
  (exists r, crun (cg (lit "t.a")) (ends (no_command [] []) (Some (lit "t.a")) (Some (lit "t.b")) None None) = COk (OReports [r])) /\
  crun (cg (lit "t.a")) (ends (no_command [] []) (Some (lit "t.b")) (Some (lit "t.a")) None None) =
    CMsg (lit "no path between t.b and t.a") /\
  crun (cg (lit "t.a")) (no_command [] []) = CMsg (lit "no action specified").
Proof. repeat split; try (eexists; vm_compute; reflexivity); vm_compute; reflexivity. Qed.

(** ** C84. A flag that is given as false counts as given. *)
Definition flags (o : options) (registers loops : option bool) : options :=
  Opts registers loops (o_dot o) (o_find o) (o_findre o) (o_fanout o) (o_fanin o)
       (o_sens o) (o_const o) (o_drivers o) (o_from o) (o_to o) (o_scopes o) (o_names o).
Theorem c84_false_flag_refuted : ~ (forall cval ctext addr order regex diags live (g : nlg cval) o,
  run cval ctext addr order regex diags live g (flags o (Some false) None) =
  run cval ctext addr order regex diags live g (flags o None None)) /\
 ~ (forall cval ctext addr order regex diags live (g : nlg cval) o,
  run cval ctext addr order regex diags live g (flags o None (Some false)) =
  run cval ctext addr order regex diags live g (flags o None None)).
Proof.
  split; intros H;
    specialize (H str (fun s => s) (fun n => n) corder (fun _ => None) false (fun _ => true) (cg (lit "t.a")) (no_command [] []));
    vm_compute in H; discriminate.
Qed.
Print Assumptions c84_false_flag_refuted.
Theorem c84_flag_value_ignored : forall cval ctext addr order regex diags live (g : nlg cval) o a b c d,
  (a = None <-> c = None) -> (b = None <-> d = None) ->
  run cval ctext addr order regex diags live g (flags o a b) = run cval ctext addr order regex diags live g (flags o c d).
Proof.
  intros cval ctext addr order regex diags live g o a b c d Ha Hb. unfold run.
  assert (E : forall x y, alias (flags o x y) = flags (alias o) x y).
  { intros x y. unfold alias. cbn. destruct (_ && _); [reflexivity|]. destruct (_ && _); reflexivity. }
  rewrite !E. unfold dispatch. cbn.
  assert (Ga : given a = given c) by (destruct a, c; try reflexivity; [pose proof (proj2 Ha eq_refl)|pose proof (proj1 Ha eq_refl)]; discriminate).
  assert (Gb : given b = given d) by (destruct b, d; try reflexivity; [pose proof (proj2 Hb eq_refl)|pose proof (proj1 Hb eq_refl)]; discriminate).
  rewrite Ga, Gb. destruct (given c); [reflexivity|]. destruct (given d); reflexivity.
Qed.
Print Assumptions c84_flag_value_ignored.

(** ** C85. The listing commands list exactly the named nodes of the query that pass the
    filters, with their locations. *)
Theorem c85_registers : forall cval ctext addr order regex diags live (g : nlg cval) o, Mirror (lg g) -> FilesKnown cval g ->
  o_registers o <> None -> exists ns t,
  run cval ctext addr order regex diags live g o = COk (OTable [lit "Name"; lit "Location"] t) /\
  Forall2 (NameRow cval g) ns t /\ Subseq ns (gnodes (lg g)) /\
  forall n, In n ns <-> Register cval g n /\ exists p, Named cval g n p /\ Passes (o_scopes o) (o_names o) p.
Proof. intros cval ctext addr order regex diags live g o M F H. apply registers_ok; auto. destruct (o_registers o); [reflexivity|congruence]. Qed.
Print Assumptions c85_registers.
Theorem c85_fan_out : forall cval ctext addr order regex diags live (g : nlg cval) scopes names x, Mirror (lg g) -> FilesKnown cval g ->
  let out := run cval ctext addr order regex diags live g (ends (no_command scopes names) None None (Some x) None) in
  (exists n ns t, First cval g x n /\ out = COk (OTable [lit "Name"; lit "Location"] t) /\
     Forall2 (NameRow cval g) ns t /\ NoDup ns /\
     forall m, In m ns <-> Reach (Comb (nl_of cval g)) n m /\ exists p, Named cval g m p /\ Passes scopes names p) \/
  (out = CMsg (lit "could not find node: " ++ x) /\ forall n, ~ Named cval g n x).
Proof.
  intros cval ctext addr order regex diags live g scopes names x M F out.
  change out with (run_cone cval getCombFanOut g (ends (no_command scopes names) None None (Some x) None) x).
  apply (cone_ok cval g F getCombFanOut (Comb (nl_of cval g))).
  - intros n I. now apply fanOut_spec.
  - intros a b _ [(e & Ie & <- & _) _]. apply (mir_out _ M _ _ Ie).
Qed.
Print Assumptions c85_fan_out.
Theorem c85_fan_in : forall cval ctext addr order regex diags live (g : nlg cval) scopes names x, Mirror (lg g) -> FilesKnown cval g ->
  let out := run cval ctext addr order regex diags live g (ends (no_command scopes names) None None None (Some x)) in
  (exists n ns t, First cval g x n /\ out = COk (OTable [lit "Name"; lit "Location"] t) /\
     Forall2 (NameRow cval g) ns t /\ NoDup ns /\
     forall m, In m ns <-> Reach (CombBack (nl_of cval g)) n m /\ exists p, Named cval g m p /\ Passes scopes names p) \/
  (out = CMsg (lit "could not find node: " ++ x) /\ forall n, ~ Named cval g n x).
Proof.
  intros cval ctext addr order regex diags live g scopes names x M F out.
  change out with (run_cone cval getCombFanIn g (ends (no_command scopes names) None None None (Some x)) x).
  apply (cone_ok cval g F getCombFanIn (CombBack (nl_of cval g))).
  - intros n I. now apply fanIn_spec.
  - intros a b _ [(e & Ie & _) _]. apply (mir_out _ M _ _ Ie).
Qed.
Print Assumptions c85_fan_in.
(** Options with one other command. *)
Definition with_sens (scopes names : list str) (x : str) : options :=
  Opts None None None None None None None (Some x) None None None None scopes names.
Definition with_const (x : str) : options := Opts None None None None None None None None (Some x) None None None [] [].
Definition with_drivers (x : str) : options := Opts None None None None None None None None None (Some x) None None [] [].
Definition with_find (scopes names : list str) (x : str) : options :=
  Opts None None None (Some x) None None None None None None None None scopes names.
Definition with_findre (scopes names : list str) (x : str) : options :=
  Opts None None None None (Some x) None None None None None None None scopes names.
Theorem c85_sensitivity : forall cval ctext addr order regex diags live (g : nlg cval) scopes names x, Mirror (lg g) ->
  FilesKnown cval g -> Keys cval g order ->
  let out := run cval ctext addr order regex diags live g (with_sens scopes names x) in
  (exists ss t, out = COk (OTable [lit "Name"; lit "Edge"; lit "Location"] t) /\ Forall2 (SensRow cval g) ss t /\ NoDup ss /\
     forall s k, In (s, k) ss <->
       (exists n q ts, Named cval g n q /\ Lex x ts /\ Matches ts q /\ Gates (nl_of cval g) n s k) /\
       (exists p, (Named cval g s p \/ (Unnamed cval g s /\ p = [])) /\ Passes scopes names p)) \/
  (out = CMsg (lit "could not find node: " ++ x) /\ forall n q ts, Named cval g n q -> Lex x ts -> ~ Matches ts q).
Proof.
  intros cval ctext addr order regex diags live g scopes names x M F K.
  exact (sens_ok cval addr order live g M F (with_sens scopes names x) x K).
Qed.
Print Assumptions c85_sensitivity.
Theorem c85_constants : forall cval ctext addr order regex diags live (g : nlg cval) x, Mirror (lg g) -> FilesKnown cval g ->
  let out := run cval ctext addr order regex diags live g (with_const x) in
  (exists n ns t, First cval g x n /\ out = COk (OTable [lit "Value"; lit "Location"] t) /\
     Forall2 (ConstRow cval ctext g) ns t /\ NoDup ns /\ (Source cval g n -> ns = []) /\
     (~ Source cval g n -> forall c, In c ns <-> c <> n /\ Reach (CombBack (nl_of cval g)) n c /\ nkind (ninf (nl_of cval g) c) = KConstant)) \/
  (out = CMsg (lit "could not find node: " ++ x) /\ forall n, ~ Named cval g n x).
Proof. intros cval ctext addr order regex diags live g x M F. exact (const_ok cval ctext g M F x). Qed.
Print Assumptions c85_constants.
Theorem c85_drivers : forall cval ctext addr order regex diags live (g : nlg cval) x p q, Mirror (lg g) -> FilesKnown cval g ->
  (forall a b, addr a = addr b -> a = b) ->
  (RangeText x p q \/ ((forall p r, ~ RangeText x p r) /\ p = x /\ q = Range 0 2147483647)) ->
  let out := run cval ctext addr order regex diags live g (with_drivers x) in
  (exists ds t, (exists n, Named cval g n p) /\ out = COk (OTable [lit "Bits"; lit "Driver"; lit "Location"] t) /\
     Forall2 (DriverRow cval ctext g) ds t /\ Driving cval g p q ds) \/
  (out = CMsg (lit "could not find node: " ++ p) /\ forall n, ~ Named cval g n p).
Proof. intros cval ctext addr order regex diags live g x p q M F Ia H. exact (drivers_ok cval ctext addr g M F x p q Ia H). Qed.
Print Assumptions c85_drivers.
Example c85_examples :
  crun (cg (lit "t.a")) (flags (no_command [] []) (Some true) None) = COk (OTable [lit "Name"; lit "Location"] [[lit "t.q"; at_]]) /\
  crun (cg (lit "t.a")) (flags (no_command [lit "u"] []) (Some true) None) = COk (OTable [lit "Name"; lit "Location"] []) /\
  crun (cg (lit "t.a")) (ends (no_command [] [lit "*.b"]) None None (Some (lit "t.a")) None) =
    COk (OTable [lit "Name"; lit "Location"] [[lit "t.b"; at_]]) /\
  crun (cg (lit "t.a")) (with_sens [] [] (lit "t.q")) =
    COk (OTable [lit "Name"; lit "Edge"; lit "Location"] [[lit "t.clk"; lit "PosEdge"; at_]]) /\
  crun (cg (lit "t.a")) (with_drivers (lit "t.b[0]")) =
    COk (OTable [lit "Bits"; lit "Driver"; lit "Location"] [[lit "[0]"; lit "assignment"; at_]]) /\
  crun (cg (lit "t.a")) (with_const (lit "t.b")) = COk (OTable [lit "Value"; lit "Location"] []) /\
  Mirror (lg (cg (lit "t.a"))) /\ FilesKnown str (cg (lit "t.a")) /\ Keys str (cg (lit "t.a")) corder.
Proof.
  repeat match goal with |- _ /\ _ => split end; try (vm_compute; reflexivity); [apply cg_mirror|apply cg_files|apply cg_keys].
Qed.

(** ** C86. A search finds exactly the nodes whose path matches, whatever the hash order. *)
Theorem c86_find : forall cval ctext addr order regex diags live (g : nlg cval) scopes names x, Mirror (lg g) ->
  FilesKnown cval g -> Keys cval g order -> exists ns t,
  run cval ctext addr order regex diags live g (with_find scopes names x) = COk (OTable [lit "Name"; lit "Location"] t) /\
  Forall2 (NameRow cval g) ns t /\ NoDup ns /\
  forall n, In n ns <-> exists p, Named cval g n p /\ (exists ts, Lex x ts /\ Matches ts p) /\ Passes scopes names p.
Proof.
  intros cval ctext addr order regex diags live g scopes names x M F K.
  destruct (found_ok cval order g M F (with_find scopes names x) (fun name => matches name x) K) as (ns & t & E & Ft & ND & H).
  exists ns, t. split; [exact E|]. split; auto. split; auto. intros n. rewrite H.
  split; intros (p & N & T & P); exists p; split; auto; split; auto; now apply matches_iff.
Qed.
Print Assumptions c86_find.
Theorem c86_find_regex : forall cval ctext addr order regex diags live (g : nlg cval) scopes names x test, Mirror (lg g) ->
  FilesKnown cval g -> Keys cval g order -> regex x = Some test -> exists ns t,
  run cval ctext addr order regex diags live g (with_findre scopes names x) = COk (OTable [lit "Name"; lit "Location"] t) /\
  Forall2 (NameRow cval g) ns t /\ NoDup ns /\
  forall n, In n ns <-> exists p, Named cval g n p /\ test p = true /\ Passes scopes names p.
Proof.
  intros cval ctext addr order regex diags live g scopes names x test M F K R.
  destruct (found_ok cval order g M F (with_findre scopes names x) test K) as (ns & t & E & H).
  exists ns, t. split; [|exact H].
  change (run cval ctext addr order regex diags live g (with_findre scopes names x)) with (run_findre cval order regex g (with_findre scopes names x) x).
  unfold run_findre. rewrite R. exact E.
Qed.
Print Assumptions c86_find_regex.
Example c86_example : crun (cg (lit "t.a")) (with_find [] [] (lit "t.?")) =
  COk (OTable [lit "Name"; lit "Location"] [[lit "t.q"; at_]; [lit "t.a"; at_]; [lit "t.a"; at_]; [lit "t.b"; at_]]).
Proof. vm_compute. reflexivity. Qed.

(** ** C87. --drivers does not find a signal whose own name ends like a bit range (an escaped
    identifier). *)
Theorem c87_any_name_refuted : ~ (forall cval ctext addr order regex diags live (g : nlg cval) x, Mirror (lg g) -> FilesKnown cval g ->
  (exists n, Named cval g n x) -> exists t, run cval ctext addr order regex diags live g (with_drivers x) = COk t).
Proof.
  intros H. destruct (H str (fun s => s) (fun n => n) corder (fun _ => None) false (fun _ => true) (cg (lit "t.a[3]")) (lit "t.a[3]"))
    as (t & E); [apply cg_mirror|apply cg_files|exists 0; split; [vm_compute; auto|reflexivity]|].
  vm_compute in E. discriminate.
Qed.
Print Assumptions c87_any_name_refuted.
Theorem c87_any_name_partial : forall cval ctext addr order regex diags live (g : nlg cval) x, Mirror (lg g) -> FilesKnown cval g ->
  (forall a b, addr a = addr b -> a = b) ->
  (forall p r, ~ RangeText x p r) -> (exists n, Named cval g n x) ->
  exists ds t, run cval ctext addr order regex diags live g (with_drivers x) = COk (OTable [lit "Bits"; lit "Driver"; lit "Location"] t) /\
    Forall2 (DriverRow cval ctext g) ds t /\ Driving cval g x (Range 0 2147483647) ds.
Proof.
  intros cval ctext addr order regex diags live g x M F Ia H (n & N).
  destruct (c85_drivers cval ctext addr order regex diags live g x x (Range 0 2147483647) M F Ia) as [(ds & t & _ & E & A & B)|[_ K]]; eauto.
  destruct (K _ N).
Qed.
Print Assumptions c87_any_name_partial.
Example c87_nonvacuous : (forall p r, ~ RangeText (lit "t.a") p r) /\ exists n, Named str (cg (lit "t.a")) n (lit "t.a").
Proof.
  split; [|exists 0; split; [vm_compute; auto|reflexivity]].
  intros p r H. apply c25_bwd in H. vm_compute in H. discriminate.
Qed.

(** ** C88. A name stands for the first node with it, not for all of them. *)
Theorem c88_all_nodes_refuted : ~ (forall cval ctext addr order regex diags live (g : nlg cval) x n m p, Mirror (lg g) -> FilesKnown cval g ->
  Named cval g n x -> Reach (Comb (nl_of cval g)) n m -> Named cval g m p ->
  exists h t r, run cval ctext addr order regex diags live g (ends (no_command [] []) None None (Some x) None) = COk (OTable h t) /\
    In r t /\ hd_error r = Some p).
Proof.
  intros H.
  set (g := NL (lfiles (cg (lit "t.a"))) [] (mk_graph 7 [(0, 2); (1, 3); (2, 4); (3, 6)]) (lnode (cg (lit "t.a"))) (lid (cg (lit "t.a")))
               (fun _ => ED EKNone None (Range 0 0)%Z false) (lsyms (cg (lit "t.a")))).
  destruct (H str (fun s => s) (fun n => n) corder (fun _ => None) false (fun _ => true) g (lit "t.a") 1 6 (lit "t.clk"))
    as (h & t & r & E & I & Hd).
  - apply c01 with (thr := outEdgeIndexThreshold), mk_graph_reachable.
  - assert (K : known_file str g cl) by (eexists; eapply LT_file; [simpl; lia|reflexivity]). split.
    + intros n l Hn. vm_compute in Hn. repeat destruct Hn as [<-|Hn]; try destruct Hn; cbn; intros E; injection E as <-; apply K.
    + intros s [<-|[<-|[<-|[]]]]; apply K.
  - split; [vm_compute; auto|reflexivity].
  - eapply reach_step; [eapply reach_step; [apply reach_refl|]|].
    + instantiate (1 := 3). split; [|vm_compute; discriminate]. exists (Edge 1 1 3). vm_compute. auto.
    + split; [|vm_compute; discriminate]. exists (Edge 3 3 6). vm_compute. auto.
  - split; [vm_compute; tauto|reflexivity].
  - vm_compute in E. injection E as <- <-. destruct I as [<-|[<-|[]]]; vm_compute in Hd; discriminate.
Qed.
Print Assumptions c88_all_nodes_refuted.
(** Likewise a path that starts at another node of that name is not found. *)
Theorem c88_path_refuted : ~ (forall cval ctext addr order regex diags live (g : nlg cval) a b s e, Mirror (lg g) -> FilesKnown cval g ->
  Named cval g s a -> Named cval g e b -> Reach1 (Conn (nl_of cval g)) s e ->
  exists r, run cval ctext addr order regex diags live g (ends (no_command [] []) (Some a) (Some b) None None) = COk (OReports [r])).
Proof.
  intros H.
  destruct (H str (fun s => s) (fun n => n) corder (fun _ => None) false (fun _ => true) (cg (lit "t.a")) (lit "t.a") (lit "t.q") 1 5)
    as (r & E).
  - apply cg_mirror.
  - apply cg_files.
  - split; [vm_compute; auto|reflexivity].
  - split; [vm_compute; tauto|reflexivity].
  - exists 3. split; [exists (Edge 1 1 3); vm_compute; auto|]. apply reach_one. exists (Edge 3 3 5). vm_compute. auto.
  - vm_compute in E. discriminate.
Qed.
Print Assumptions c88_path_refuted.
Theorem c88_single_node_partial : forall cval ctext addr order regex diags live (g : nlg cval) scopes names x n, Mirror (lg g) ->
  FilesKnown cval g -> Named cval g n x -> (forall m, Named cval g m x -> m = n) ->
  exists ns t, run cval ctext addr order regex diags live g (ends (no_command scopes names) None None (Some x) None) =
      COk (OTable [lit "Name"; lit "Location"] t) /\
    Forall2 (NameRow cval g) ns t /\ NoDup ns /\
    forall m, In m ns <-> (exists n, Named cval g n x /\ Reach (Comb (nl_of cval g)) n m) /\
                          exists p, Named cval g m p /\ Passes scopes names p.
Proof.
  intros cval ctext addr order regex diags live g scopes names x n M F N U.
  destruct (c85_fan_out cval ctext addr order regex diags live g scopes names x M F) as [(n' & ns & t & Fn & E & Ft & ND & H)|[_ K]].
  - exists ns, t. split; [exact E|]. split; auto. split; auto. intros m. rewrite H.
    assert (E' : n' = n) by (apply U; destruct Fn as (? & ? & _ & K & _); exact K). subst n'.
    split; intros [A B]; split; auto; [exists n; auto|]. destruct A as (k & Nk & R). now rewrite <- (U _ Nk).
  - destruct (K _ N).
Qed.
Print Assumptions c88_single_node_partial.
Example c88_nonvacuous : Named str (cg (lit "t.a")) 4 (lit "t.b") /\ forall m, Named str (cg (lit "t.a")) m (lit "t.b") -> m = 4.
Proof.
  split; [split; [vm_compute; tauto|reflexivity]|]. intros m [Hm H]. vm_compute in Hm. repeat destruct Hm as [<-|Hm]; try destruct Hm; cbn in H; try discriminate; try destruct H; reflexivity.
Qed.

(** ** C89. The JSON form of a table has the same cells under the lower-cased headers. *)
Definition header_of (x : output) : option (list str * list (list str)) :=
  match x with OTable h t => Some (h, t) | _ => None end.
(** The value under a key of an object. *)
Definition Field (j : json) (k : str) (v : str) : Prop := exists l, j = JObj l /\ In (k, JStr v) l /\ NoDup (map fst l).
Lemma lower_spec c : lower_char c = lowered c.
Proof. destruct c as [[] [] [] [] [] [] [] []]; reflexivity. Qed.
Lemma lower_text h : map lower_char h = map lowered h.
Proof. apply map_ext, lower_spec. Qed.
Lemma lower_texts h : map (map lower_char) h = map (map lowered) h.
Proof. apply map_ext, lower_text. Qed.
Lemma json_row_spec header : forall r, length r = length header ->
  map fst (json_row header r) = map (map lower_char) header /\
  forall i h c, nth_error header i = Some h -> nth_error r i = Some c -> In (map lower_char h, JStr c) (json_row header r).
Proof.
  induction header as [|h header IH]; intros [|c r] L; try discriminate.
  - split; [reflexivity|]. intros [|i] h c; discriminate.
  - injection L as L. destruct (IH r L) as [A B]. simpl. split; [now rewrite A|].
    intros [|i] h0 c0 H1 H2; simpl in *; [injection H1 as <-; injection H2 as <-; now left|]. right. eapply B; eauto.
Qed.
Theorem c89_json : forall header t, (forall r, In r t -> length r = length header) -> NoDup (map (map lowered) header) ->
  exists js, emit_json header t = JArr js /\ length js = length t /\
  forall i j r k h c, nth_error js i = Some j -> nth_error t i = Some r -> nth_error header k = Some h ->
    (nth_error r k = Some c <-> Field j (map lowered h) c).
Proof.
  intros header t L ND. rewrite <- lower_texts in ND. exists (map (fun r => JObj (json_row header r)) t). split; [reflexivity|]. split; [apply map_length|].
  intros i j r k h c Hj Hr Hh. rewrite nth_error_map, Hr in Hj. injection Hj as <-. rewrite <- lower_text.
  assert (Lr : length r = length header) by (apply L; eapply nth_error_In; eauto).
  destruct (json_row_spec header r Lr) as [A B]. split.
  - intros Hc. exists (json_row header r). split; auto. split; [eapply B; eauto|]. now rewrite A.
  - intros (l & E & I & _). injection E as <-.
    destruct (nth_error r k) as [d|] eqn:Hd.
    + specialize (B k h d Hh Hd). f_equal.
      assert (N : NoDup (map fst (json_row header r))) by now rewrite A.
      clear - N I B. induction (json_row header r) as [|[x y] l IH]; [destruct I|]. simpl in N. inversion N; subst.
      destruct I as [I|I], B as [B|B].
      * congruence.
      * exfalso. apply H1. injection I as -> ->. apply (in_map fst) in B. exact B.
      * exfalso. apply H1. injection B as -> ->. apply (in_map fst) in I. exact I.
      * auto.
    + apply nth_error_None in Hd. assert (nth_error header k <> None) by congruence. apply nth_error_Some in H. lia.
Qed.
Print Assumptions c89_json.
(** All tables of the commands are of that form. *)
Theorem c89_tables : forall cval ctext addr order regex diags live (g : nlg cval) o h t,
  run cval ctext addr order regex diags live g o = COk (OTable h t) ->
  NoDup (map (map lowered) h) /\ forall r, In r t -> length r = length h.
Proof.
  assert (T : forall A (f : A -> cres (list str)) k l t, (forall a r, f a = COk r -> length r = k) -> ctraverse f l = COk t ->
                forall r, In r t -> length r = k).
  { intros A f k l. induction l as [|a l IH]; intros t Hf E r I; cbn [ctraverse] in E.
    - injection E as <-. destruct I.
    - destruct (f a) as [b| |] eqn:Ea; cbn [cbind] in E; try discriminate.
      destruct (ctraverse f l) as [bs| |] eqn:El; cbn [cbind] in E; try discriminate. injection E as <-.
      destruct I as [<-|I]; eauto. }
  assert (N2 : NoDup (map (map lowered) [lit "Name"; lit "Location"])).
  { cbn. repeat constructor; intros H; repeat (destruct H as [H|H]; [discriminate|]); destruct H. }
  assert (N3 : NoDup (map (map lowered) [lit "Name"; lit "Edge"; lit "Location"])).
  { cbn. repeat constructor; intros H; repeat (destruct H as [H|H]; [discriminate|]); destruct H. }
  assert (NV : NoDup (map (map lowered) [lit "Value"; lit "Location"])).
  { cbn. repeat constructor; intros H; repeat (destruct H as [H|H]; [discriminate|]); destruct H. }
  assert (NB : NoDup (map (map lowered) [lit "Bits"; lit "Driver"; lit "Location"])).
  { cbn. repeat constructor; intros H; repeat (destruct H as [H|H]; [discriminate|]); destruct H. }
  intros cval ctext addr order regex diags live g o h t E. unfold run in E. set (o' := alias o) in *. clearbody o'. clear o.
  assert (NR : forall n s r, name_row cval g n s = COk r -> length r = 2).
  { intros n s r H. unfold name_row in H. destruct (loc_cell cval g n); cbn in H; try discriminate. injection H as <-. reflexivity. }
  assert (Fin : forall (x : cres (list (list str))) h0, cbind x (fun t => COk (OTable h0 t)) = COk (OTable h t) -> h0 = h /\ x = COk t).
  { intros x h0 H. destruct x; cbn in H; try discriminate. injection H as -> ->. auto. }
  unfold dispatch in E.
  destruct (given (o_registers o')).
  { apply Fin in E. destruct E as [<- E]. split; [exact N2|]. eapply T; [|exact E]. cbn. eauto. }
  destruct (given (o_loops o')).
  { unfold run_loops in E. destruct (of_option _); cbn in E; try discriminate. destruct (ctraverse _ _); cbn in E; discriminate. }
  destruct (o_dot o') as [f|].
  { unfold run_dot in E. destruct (dot_scope _ _ _); cbn in E; try discriminate. destruct (of_option _); cbn in E; discriminate. }
  assert (RF : forall ns, run_found cval g o' ns = COk (OTable h t) ->
             NoDup (map (map lowered) h) /\ forall r, In r t -> length r = length h).
  { intros ns H. apply Fin in H. destruct H as [<- H]. split; [exact N2|]. eapply T; [|exact H]. cbn. eauto. }
  assert (RC : forall fan x, run_cone cval fan g o' x = COk (OTable h t) ->
             NoDup (map (map lowered) h) /\ forall r, In r t -> length r = length h).
  { intros fan x H. unfold run_cone in H. destruct (requireNode _ _ _); cbn [cbind] in H; try discriminate.
    destruct (of_option _); cbn [cbind] in H; try discriminate.
    apply Fin in H. destruct H as [<- H]. split; [exact N2|]. eapply T; [|exact H]. cbn. eauto. }
  destruct (o_find o') as [x|]; [eapply RF; exact E|].
  destruct (o_findre o') as [x|].
  { unfold run_findre in E. destruct (regex x); try discriminate. eapply RF; exact E. }
  destruct (o_fanout o') as [x|]; [eapply RC; exact E|].
  destruct (o_fanin o') as [x|]; [eapply RC; exact E|].
  destruct (o_sens o') as [x|].
  { unfold run_sens in E. destruct (findNodes _ _ _) as [|n l]; try discriminate.
    destruct (gather _ _ _ _); cbn [cbind] in E; try discriminate. apply Fin in E. destruct E as [<- E]. split; [exact N3|].
    eapply T; [|exact E]. cbn. intros s0 r Hr. destruct (loc_cell _ _ _); cbn in Hr; try discriminate. now injection Hr as <-. }
  destruct (o_const o') as [x|].
  { unfold run_const in E. destruct (requireNode _ _ _); cbn [cbind] in E; try discriminate.
    destruct (of_option _); cbn [cbind] in E; try discriminate.
    apply Fin in E. destruct E as [<- E]. split; [exact NV|]. eapply T; [|exact E]. cbn. intros m r Hr. destruct (lnode g m); try discriminate.
    eauto. }
  destruct (o_drivers o') as [x|].
  { unfold run_drivers in E. destruct (parseNameAndRange x). destruct (requireNode _ _ _); cbn [cbind] in E; try discriminate.
    apply Fin in E. destruct E as [<- E]. split; [exact NB|]. eapply T; [|exact E]. cbn. intros a0 r Hr.
    destruct (loc_cell _ _ _); cbn in Hr; try discriminate. now injection Hr as <-. }
  destruct (o_from o'); try discriminate. destruct (o_to o'); try discriminate. unfold run_path in E.
  repeat (destruct (require _ _ _ _); cbn [cbind] in E; try discriminate).
  destruct (find_path _ _ _ _ _ _); cbn [cbind] in E; try discriminate.
  destruct (of_rres _); cbn [cbind] in E; discriminate.
Qed.
Print Assumptions c89_tables.
Example c89_example : emit_json [lit "Name"; lit "Location"] [[lit "t.q"; at_]] =
  JArr [JObj [(lit "name", JStr (lit "t.q")); (lit "location", JStr at_)]].
Proof. vm_compute. reflexivity. Qed.

(** ** C90. The DOT output combined with a selector is the subgraph induced by that cone or
    path. *)
Theorem c90_scoped_dot : forall cval ctext addr order regex diags live (g : nlg cval) o file, Mirror (lg g) ->
  (forall n, In n (gnodes (lg g)) -> lnode g n <> DNone) ->
  o_registers o = None -> o_loops o = None -> o_dot o = Some file ->
  (exists f out, ScopeOf cval g (alias o) f /\ Induced cval ctext range_toString g f out /\
     run cval ctext addr order regex diags live g o = COk (ODot file (doc_text print_int out))) \/
  (exists m, NoScope cval g (alias o) m /\ run cval ctext addr order regex diags live g o = CMsg m).
Proof.
  intros cval ctext addr order regex diags live g o file M K R L D.
  assert (E : run cval ctext addr order regex diags live g o = run_dot cval ctext g (alias o) file).
  { unfold run, dispatch.
    assert (A : o_registers (alias o) = None /\ o_loops (alias o) = None /\ o_dot (alias o) = Some file).
    { unfold alias. destruct (_ && _); [auto|]. destruct (_ && _); auto. }
    destruct A as (-> & -> & ->). reflexivity. }
  rewrite E. unfold run_dot. destruct (dot_scope_ok cval addr live g M (alias o)) as [(f & -> & S)|(m & -> & N)]; cbn [cbind].
  - left. destruct (P_Dot.c58 cval ctext g f M) as (out & In1 & Er); [auto|]. rewrite Er. exists f, out. auto.
  - right. eauto.
Qed.
Print Assumptions c90_scoped_dot.
Example c90_example : exists t, crun (cg (lit "t.a"))
  (Opts None None (Some (lit "-")) None None None None None None None (Some (lit "t.a")) None [] []) = COk (ODot (lit "-") t) /\
  t = doc_text print_int [DNode 1 (lit "In port a"); DNode 3 (lit "Assignment"); DNode 5 (lit "Variable b");
                          DEdge 1 3 (Some (lit "a[0]")); DEdge 3 5 (Some (lit "b[0]"))].
Proof. eexists. split; vm_compute; reflexivity. Qed.
