From Coq Require Import Ascii String.
From Verif Require Import Base M_Graph S_Graph M_Netlist M_Text M_Serial S_Serial M_Report M_Cli M_Main S_Load S_Main P_Load1 P_Load3.
Notation length := List.length.

Lemma stats_ok m : Forall is_stats (stats m).
Proof. unfold stats. destruct (given (m_stats m)), (given (m_statsjson m)); cbn [app]; repeat apply Forall_cons; try apply Forall_nil; unfold is_stats; auto. Qed.
Lemma write_to f x : to_file f x (write_file f x).
Proof. unfold write_file, to_file. change dash with (lit "-"). destruct (str_eqb f (lit "-")) eqn:X; [apply str_eqb_eq in X; auto|].
  right. split; [|reflexivity]. intros Y. apply str_eqb_eq in Y. congruence. Qed.

Section Main.
Variable cval : Type.
Variable cbad : cval.
Variable ctext : cval -> str.
Variable cparse : str -> option cval.
Variable w : world cval.
Notation main := (main cval cbad ctext cparse w).
Notation ask := (run cval ctext (w_addr w) (w_order w) (w_regex w)).

Lemma finish_0 m f x l : finish cval w m f x = Exit l 0 -> exists e, l = e :: stats m /\ match f with None => e = Stdout x | Some f => to_file f x e end.
Proof.
  unfold finish, fail. destruct f as [f|].
  - destruct (can_write cval w f); [|discriminate]. intros [= <-]. eexists. split; [reflexivity|apply write_to].
  - intros [= <-]. eauto.
Qed.
Lemma finish_n m f x l c : finish cval w m f x = Exit l c -> c <> 0 -> c = 1 /\ Forall on_stderr l.
Proof.
  unfold finish, fail. destruct f as [f|]; [destruct (can_write cval w f)|]; intros [= <- <-] N; try congruence. split; [reflexivity|]. repeat constructor. eexists. reflexivity.
Qed.
Lemma js_spec m js : json_format m = Some js -> (js = true <-> m_format m = Some (lit "json")).
Proof.
  unfold json_format. destruct (m_format m) as [f|]; [|intros [= <-]; split; discriminate].
  destruct (str_eqb f (lit "json")) eqn:X; [apply str_eqb_eq in X as ->; intros [= <-]; tauto|].
  destruct (str_eqb f (lit "table")) eqn:Y; [|discriminate]. apply str_eqb_eq in Y as ->. intros [= <-]. split; discriminate.
Qed.
Lemma query_0 m js d g l : json_format m = Some js -> query cval ctext w m js d g = Exit l 0 ->
  exists x e, ask d (w_live w) g (m_query m) = COk x /\ delivered m x e /\ l = e :: stats m.
Proof.
  intros J. unfold query. destruct (run _ _ _ _ _ _ _ _ _) as [x| |]; [|discriminate|discriminate]. intros H. exists x.
  destruct x as [h t|r|f t]; cbn [emit] in H; apply finish_0 in H as (e & -> & K); exists e; (split; [reflexivity|]); (split; [|reflexivity]).
  - destruct (m_output m) as [f|] eqn:O; [eapply D_file; eauto using js_spec|subst e; eapply D_stdout; eauto using js_spec].
  - subst e. constructor.
  - now constructor.
Qed.
Lemma query_n m js d g l c : query cval ctext w m js d g = Exit l c -> c <> 0 -> c = 1 /\ Forall on_stderr l.
Proof.
  unfold query. destruct (run _ _ _ _ _ _ _ _ _) as [x| |]; [|intros [= <- <-] _; split; [reflexivity|repeat constructor; eexists; reflexivity]|discriminate].
  destruct x as [h t|r|f t]; cbn [emit]; apply finish_n.
Qed.
Lemma set_spec x : negb (set x) = false <-> x = Some true.
Proof. destruct x as [[]|]; cbn; split; congruence. Qed.
Lemma main_0 m l : main m = Exit l 0 -> works m ->
  (exists e f, m_load m = None /\ m_save m = Some f /\ (exists g, Netlist_of cval cbad cparse w m g /\ to_file f (CNetlist (serialize ctext g)) e) /\ l = e :: stats m) \/
  ((m_load m <> None \/ m_save m = None) /\ exists g x e, Netlist_of cval cbad cparse w m g /\
     ask (negb (given (m_load m))) (w_live w) g (m_query m) = COk x /\ delivered m x e /\ l = e :: stats m).
Proof.
  intros H [W1 W2]. unfold M_Main.main in H. destruct (w_cmdline w); cbn [negb] in H; [|discriminate].
  destruct (m_help m) as [[]|]; [congruence| |]; destruct (m_version m) as [[]|]; try congruence;
  (destruct (json_format m) as [js|] eqn:J; [|discriminate]; destruct (m_load m) as [f|] eqn:L;
   [right; unfold load_path in H; destruct (w_read w f) eqn:Rd; try discriminate;
    destruct (deserialize cbad cparse (w_next w) j nl_empty) as [g [[]| |]] eqn:D; try discriminate;
    destruct (query_0 m js false g l J H) as (x & e & A & B & C); split; [left; discriminate|]; exists g, x, e; split; [eapply N_load; eauto|auto]
   |unfold build_path in H; destruct (w_process w), (w_parse w), (w_elab w), (w_analysis w); cbn [negb] in H; try discriminate;
    destruct (m_save m) as [f|] eqn:Sv;
    [left; apply finish_0 in H as (e & -> & K); exists e, f; split; [reflexivity|]; split; [reflexivity|]; split; [|reflexivity]; exists (built cval w m); split; [|exact K]; unfold built; constructor; [exact L|apply set_spec|apply set_spec]
    |right; destruct (query_0 m js true _ l J H) as (x & e & A & B & C); split; [right; reflexivity|]; exists (built cval w m), x, e; split; [|auto]; unfold built; constructor; [exact L|apply set_spec|apply set_spec]]]).
Qed.
Definition good_format (m : mopts) : Prop := m_format m = None \/ m_format m = Some (lit "json") \/ m_format m = Some (lit "table").
Lemma format_good m : json_format m <> None <-> good_format m.
Proof.
  unfold json_format, good_format. destruct (m_format m) as [f|]; [|split; [auto|discriminate]].
  destruct (str_eqb f (lit "json")) eqn:X; [apply str_eqb_eq in X as ->; split; [auto|discriminate]|].
  destruct (str_eqb f (lit "table")) eqn:Y; [apply str_eqb_eq in Y as ->; split; [auto|discriminate]|].
  split; [congruence|]. intros [K|[K|K]] _; [discriminate| |].
  - assert (E : f = lit "json") by congruence. apply str_eqb_eq in E. congruence.
  - assert (E : f = lit "table") by congruence. apply str_eqb_eq in E. congruence.
Qed.
Lemma main_n m l c : main m = Exit l c -> c <> 0 -> Forall on_stderr l /\ (c = 1 \/ c = 2) /\
  (c = 2 <-> w_cmdline w = true /\ works m /\ good_format m /\ m_load m = None /\ w_process w = false).
Proof.
  assert (F : forall m l c, fail m = Exit l c -> c = 1 /\ Forall on_stderr l).
  { intros e l0 c0 [= <- <-]. split; [reflexivity|repeat constructor]. eexists. reflexivity. }
  intros H N. unfold M_Main.main, works in *. rewrite <- format_good. destruct (w_cmdline w); cbn [negb] in H.
  2:{ injection H as <- <-. split; [constructor|]. split; [auto|]. split; [discriminate|]. intros (K & _). discriminate. }
  destruct (m_help m) as [[]|]; [injection H as <- <-; congruence| |];
  (destruct (m_version m) as [[]|]; [injection H as <- <-; congruence| |];
   (destruct (json_format m) as [js|] eqn:J;
    [|apply F in H as [-> S]; split; [exact S|]; split; [auto|]; split; [discriminate|]; intros (_ & _ & K & _); congruence];
    destruct (m_load m) as [f|] eqn:L;
    [assert (X : c = 1 /\ Forall on_stderr l);
     [unfold load_path in H; destruct (w_read w f); [exact (F _ _ _ H)|exact (F _ _ _ H)|];
      destruct (deserialize cbad cparse (w_next w) j nl_empty) as [g [[]| |]]; [eapply query_n; eauto|exact (F _ _ _ H)|discriminate]
     |destruct X as [-> S]; split; [exact S|]; split; [auto|]; split; [discriminate|]; intros (_ & _ & _ & K & _); discriminate]
    |unfold build_path in H; destruct (w_process w); cbn [negb] in H;
     [assert (X : c = 1 /\ Forall on_stderr l);
      [destruct (w_parse w); cbn [negb] in H; [|injection H as <- <-; auto];
       destruct (w_elab w); cbn [negb] in H; [|injection H as <- <-; auto];
       destruct (w_analysis w); cbn [negb] in H; [|injection H as <- <-; auto];
       destruct (m_save m); [eapply finish_n; eauto|eapply query_n; eauto]
      |destruct X as [-> S]; split; [exact S|]; split; [auto|]; split; [discriminate|]; intros (_ & _ & _ & _ & K); discriminate]
     |injection H as <- <-; split; [constructor|]; split; [auto|]; split; [intros _; repeat split; congruence|reflexivity]]])).
Qed.
End Main.

(** * The kind of answer of a command *)
Section Kind.
Variable cval : Type.
Variable ctext : cval -> str.
Variable addr : nat -> nat.
Variable order : list str.
Variable regex : str -> option (str -> bool).
Variable diags : bool.
Variable live : nat -> bool.
Variable g : nlg cval.
Definition table (y : output) : Prop := exists h t, y = OTable h t.
Lemma cbind_inv {A B} (x : cres A) (f : A -> cres B) y : cbind x f = COk y -> exists a, x = COk a /\ f a = COk y.
Proof. destruct x; cbn; try discriminate. eauto. Qed.
Lemma dispatch_kind o y : dispatch cval ctext addr order regex diags live g o = COk y ->
  match y with
  | OTable _ _ => tabular o /\ (o_registers o <> None \/ o_dot o = None)
  | ODot f _ => o_registers o = None /\ o_loops o = None /\ o_dot o = Some f
  | OReports _ => o_registers o = None /\ (o_loops o <> None \/
      (o_dot o = None /\ o_find o = None /\ o_findre o = None /\ o_fanout o = None /\ o_fanin o = None /\ o_sens o = None /\ o_const o = None /\ o_drivers o = None /\
       o_from o <> None /\ o_to o <> None))
  end.
Proof.
  unfold dispatch, tabular. intros H. 
  destruct (o_registers o) as [v|] eqn:Er; cbn [given] in H.
  { apply cbind_inv in H as (t & _ & [= <-]). split; [left; discriminate|left; discriminate]. }
  destruct (o_loops o) as [v|] eqn:El; cbn [given] in H.
  { apply cbind_inv in H as (t & _ & H). apply cbind_inv in H as (t' & _ & [= <-]). split; [reflexivity|left; discriminate]. }
  destruct (o_dot o) as [v|] eqn:Ed.
  { apply cbind_inv in H as (t & _ & H). apply cbind_inv in H as (t' & _ & [= <-]). auto. }
  destruct (o_find o) as [v|] eqn:E1.
  { apply cbind_inv in H as (t & _ & [= <-]). split; [right; split; [reflexivity|]; right; left; discriminate|auto]. }
  destruct (o_findre o) as [v|] eqn:E2.
  { unfold run_findre in H. destruct (regex v); [|discriminate]. apply cbind_inv in H as (t & _ & [= <-]). split; [right; split; [reflexivity|]; do 2 right; left; discriminate|auto]. }
  destruct (o_fanout o) as [v|] eqn:E3.
  { apply cbind_inv in H as (n & _ & H). apply cbind_inv in H as (k & _ & H). apply cbind_inv in H as (t & _ & [= <-]). split; [right; split; [reflexivity|]; do 3 right; left; discriminate|auto]. }
  destruct (o_fanin o) as [v|] eqn:E4.
  { apply cbind_inv in H as (n & _ & H). apply cbind_inv in H as (k & _ & H). apply cbind_inv in H as (t & _ & [= <-]). split; [right; split; [reflexivity|]; do 4 right; left; discriminate|auto]. }
  destruct (o_sens o) as [v|] eqn:E5.
  { unfold run_sens in H. destruct (findNodes _ _ _); [discriminate|]. apply cbind_inv in H as (k & _ & H). apply cbind_inv in H as (t & _ & [= <-]).
    split; [right; split; [reflexivity|]; do 5 right; left; discriminate|auto]. }
  destruct (o_const o) as [v|] eqn:E6.
  { apply cbind_inv in H as (n & _ & H). apply cbind_inv in H as (k & _ & H). apply cbind_inv in H as (t & _ & [= <-]). split; [right; split; [reflexivity|]; do 6 right; left; discriminate|auto]. }
  destruct (o_drivers o) as [v|] eqn:E7.
  { unfold run_drivers in H. destruct (parseNameAndRange v). apply cbind_inv in H as (n & _ & H). apply cbind_inv in H as (t & _ & [= <-]). split; [right; split; [reflexivity|]; do 7 right; discriminate|auto]. }
  destruct (o_from o) as [a|] eqn:E8; [|discriminate]. destruct (o_to o) as [b|] eqn:E9; [|discriminate].
  apply cbind_inv in H as (n & _ & H). apply cbind_inv in H as (k & _ & H). apply cbind_inv in H as (p & _ & H). apply cbind_inv in H as (r & _ & [= <-]).
  split; [reflexivity|]. right. repeat split; congruence.
Qed.
Lemma alias_registers o : o_registers (alias o) = o_registers o.
Proof. unfold alias. destruct (_ && _); [reflexivity|]. destruct (_ && _); reflexivity. Qed.
(** Diagnostics matter to reports only. *)
Lemma dispatch_diags live' o : tabular o -> dispatch cval ctext addr order regex diags live g o = dispatch cval ctext addr order regex false live' g o.
Proof.
  unfold dispatch, tabular. intros T. destruct (o_registers o) as [v|]; [reflexivity|]. destruct T as [T|[El T]]; [congruence|]. rewrite El. cbn [given].
  destruct (o_dot o), (o_find o), (o_findre o), (o_fanout o), (o_fanin o), (o_sens o), (o_const o), (o_drivers o); try reflexivity.
  exfalso. repeat (destruct T as [T|T]; [now destruct T|]). now destruct T.
Qed.
End Kind.

Section Main2.
Variable cval : Type.
Variable cbad : cval.
Variable ctext : cval -> str.
Variable cparse : str -> option cval.
Notation main w := (main cval cbad ctext cparse w).
(** Files: only those that are named. *)
Lemma main_files w m l c f x : main w m = Exit l c -> In (File f x) l ->
  f <> lit "-" /\ (m_output m = Some f \/ m_save m = Some f \/ o_dot (m_query m) = Some f).
Proof.
  intros H I. destruct (Nat.eq_dec c 0) as [->|N].
  2:{ destruct (main_n _ _ _ _ _ _ _ _ H N) as (S & _). rewrite Forall_forall in S. destruct (S _ I) as [y K]. discriminate. }
  assert (St : forall m, ~ In (File f x) (stats m)).
  { intros m0 K. pose proof (stats_ok m0) as S. rewrite Forall_forall in S. destruct (S _ K); discriminate. }
  assert (T : forall n y e, to_file n y e -> e = File f x -> f <> lit "-" /\ n = f).
  { intros n y e [[-> ->]|[A ->]] K; [discriminate|]. injection K as -> ->. auto. }
  assert (W : works m -> f <> lit "-" /\ (m_output m = Some f \/ m_save m = Some f \/ o_dot (m_query m) = Some f)).
  { intros Wk. destruct (main_0 _ _ _ _ _ m l H Wk) as [(e & n & A & B & (g & _ & C) & ->)|(_ & g & y & e & _ & A & D & ->)].
    - destruct I as [K|K]; [|destruct (St _ K)]. destruct (T _ _ _ C K) as [U ->]. auto.
    - destruct I as [K|K]; [|destruct (St _ K)]. destruct D as [h t n js e O _ Q|h t js _ _|r cl|n t e Q]; try discriminate.
      + destruct (T _ _ _ Q K) as [U ->]. auto.
      + destruct (T _ _ _ Q K) as [U ->]. split; [exact U|]. apply dispatch_kind in A as (_ & _ & A). rewrite alias_dot in A. auto. }
  destruct (m_help m) as [[]|] eqn:Hh.
  - unfold M_Main.main in H. rewrite Hh in H. destruct (negb (w_cmdline w)); [discriminate|]. injection H as <-. destruct I as [I|[]]; discriminate.
  - destruct (m_version m) as [[]|] eqn:Hv; try (apply W; split; congruence).
    unfold M_Main.main in H. rewrite Hh, Hv in H. destruct (negb (w_cmdline w)); [discriminate|]. injection H as <-. destruct I as [I|[]]; discriminate.
  - destruct (m_version m) as [[]|] eqn:Hv; try (apply W; split; congruence).
    unfold M_Main.main in H. rewrite Hh, Hv in H. destruct (negb (w_cmdline w)); [discriminate|]. injection H as <-. destruct I as [I|[]]; discriminate.
Qed.

(** JSON tables. *)
Lemma stdout_stats m : stdout_of (stats m) = if given (m_statsjson m) then [CStatsJson] else [].
Proof. unfold stats. destruct (given (m_stats m)), (given (m_statsjson m)); reflexivity. Qed.
Lemma main_json w m l : main w m = Exit l 0 -> works m -> (m_load m <> None \/ m_save m = None) -> tabular (alias (m_query m)) -> o_dot (m_query m) = None ->
  m_format m = Some (lit "json") -> exists h t, stdout_of l =
    (match m_output m with None => [CRows true h t] | Some f => if str_eqb f (lit "-") then [CRows true h t] else [] end) ++
    (if given (m_statsjson m) then [CStatsJson] else []).
Proof.
  intros H W L T Dt J. destruct (main_0 _ _ _ _ _ m l H W) as [(e & n & A & B & _)|(_ & g & y & e & _ & A & D & ->)]; [destruct L; congruence|].
  pose proof (dispatch_kind _ _ _ _ _ _ _ _ _ _ A) as K.
  destruct D as [h t n js e O Q F|h t js O Q|r cl|n t e F].
  - exists h, t. rewrite O, <- stdout_stats. replace js with true by (symmetry; now apply Q). replace js with true in F by (symmetry; now apply Q).
    destruct F as [[-> ->]|[U ->]]; [reflexivity|]. destruct (str_eqb n (lit "-")) eqn:X; [apply str_eqb_eq in X; congruence|reflexivity].
  - exists h, t. rewrite O, <- stdout_stats. replace js with true by (symmetry; now apply Q). reflexivity.
  - destruct K as (K1 & K2). unfold tabular in T. rewrite K1 in T. destruct T as [T|[T1 T2]]; [congruence|]. rewrite T1 in K2.
    destruct K2 as [K2|(Q1 & Q2 & Q3 & Q4 & Q5 & Q6 & Q7 & Q8 & _)]; [congruence|]. rewrite Q1, Q2, Q3, Q4, Q5, Q6, Q7, Q8 in T2. intuition congruence.
  - destruct K as (_ & _ & K). rewrite alias_dot in K. congruence.
Qed.

(** Flags with the value false. *)
Definition drop4 (m : mopts) : mopts :=
  MOpts (drop (m_help m)) (drop (m_version m)) (m_nocolours m) (m_stats m) (m_statsjson m) (drop (m_noresolve m)) (drop (m_noprop m))
        (m_blackboxes m) (m_format m) (m_output m) (m_save m) (m_load m) (m_query m).
Lemma set_drop x : set (drop x) = set x.
Proof. destruct x as [[]|]; reflexivity. Qed.
Lemma main_drop w m : main w (drop4 m) = main w m.
Proof.
  unfold M_Main.main, load_path, build_path, query, emit, finish, built, json_format, stats. cbn [m_help m_version m_nocolours m_stats m_statsjson m_noresolve m_noprop m_blackboxes m_format m_output m_save m_load m_query drop4].
  rewrite !set_drop. destruct (m_help m) as [[]|], (m_version m) as [[]|]; reflexivity.
Qed.

(** Save with one run, load with another. *)
Lemma same_stats m : Forall2 same_effect (stats m) (stats m).
Proof. induction (stats m); constructor; auto. constructor. Qed.
Lemma finish_same w w' m f x x' : w_write w = w_write w' ->
  match f with None => same_effect (Stdout x) (Stdout x') | Some f => same_effect (write_file f x) (write_file f x') end ->
  same_outcome (finish cval w m f x) (finish cval w' m f x').
Proof.
  intros Hw H. unfold finish, can_write, fail. rewrite Hw. destruct f as [f|]; [destruct (str_eqb f dash || w_write w' f)|]; constructor; constructor; auto using same_stats.
  constructor.
Qed.
Lemma save_load_run w1 w2 m f j l : main w1 (with_files m (Some f) None) = Exit l 0 -> works m -> In (File f (CNetlist j)) l ->
  w_read w2 f = FJson j -> w_cmdline w2 = true -> w_write w2 = w_write w1 ->
  (forall a b, w_addr w1 a = w_addr w1 b -> a = b) -> (forall a b, w_addr w2 a = w_addr w2 b -> a = b) ->
  Permutation (w_order w1) (w_order w2) -> w_regex w2 = w_regex w1 -> (0 <= w_next w2)%Z -> tabular (alias (m_query m)) ->
  (forall g, Netlist_of cval cbad cparse w1 (with_files m None None) g ->
     Storable g /\ Plain cbad ctext cparse g /\ NoParallel g /\ (o_dot (m_query m) <> None -> Numbered g (w_next w2)) /\
     (o_loops (m_query m) <> None -> Increasing g)) ->
  same_outcome (main w1 (with_files m None None)) (main w2 (with_files m None (Some f))).
Proof.
  intros H [W1 W2] I Rd C2 Hw I1 I2 Po Hr Hn T G. set (m0 := with_files m None None) in *. unfold M_Main.main in H |- *. rewrite C2.
  destruct (w_cmdline w1); [|discriminate]. cbn [negb with_files m_help m_version m_load] in H |- *. change (m_help m0) with (m_help m). change (m_version m0) with (m_version m).
  assert (Hh : match m_help m with Some true => true | _ => false end = false) by (destruct (m_help m) as [[]|]; congruence || reflexivity).
  assert (Hv : match m_version m with Some true => true | _ => false end = false) by (destruct (m_version m) as [[]|]; congruence || reflexivity).
  rewrite Hh, Hv in *. change (json_format (with_files m (Some f) None)) with (json_format m) in H. change (json_format m0) with (json_format m).
  change (json_format (with_files m None (Some f))) with (json_format m).
  destruct (json_format m) as [js|] eqn:J; [|discriminate]. cbn [m_load m0 with_files].
  unfold build_path in H |- *. destruct (w_process w1), (w_parse w1), (w_elab w1), (w_analysis w1); cbn [negb] in H |- *; try discriminate.
  cbn [m_save m0 with_files] in H |- *. apply finish_0 in H as (e & -> & Te).
  change (built cval w1 (with_files m (Some f) None)) with (built cval w1 m) in Te. change (built cval w1 m0) with (built cval w1 m).
  assert (Ej : j = serialize ctext (built cval w1 m)).
  { destruct I as [K|K]; [|exfalso; pose proof (stats_ok (with_files m (Some f) None)) as S; rewrite Forall_forall in S; destruct (S _ K); discriminate].
    subst e. destruct Te as [[_ Te]|[_ Te]]; [discriminate|congruence]. }
  destruct (G (built cval w1 m)) as (S & P & Q & Nd & Inc).
  { unfold built. change (m_blackboxes m) with (m_blackboxes m0). constructor; [reflexivity|apply set_spec|apply set_spec]. }
  unfold load_path. rewrite Rd. subst j.
  destruct (save_load cval cbad ctext cparse (w_addr w1) (w_addr w2) (w_order w1) (w_order w2) (w_regex w1) (w_live w1) (w_live w2) (built cval w1 m) (w_next w2) (m_query m)
    S P Q Hn I1 I2 Po Inc Nd) as (g' & D & A).
  rewrite D. unfold query. change (m_query m0) with (m_query m). change (m_query (with_files m None (Some f))) with (m_query m). rewrite Hr.
  unfold run in *. rewrite (dispatch_diags cval ctext (w_addr w1) (w_order w1) (w_regex w1) true (w_live w1) (built cval w1 m) (w_live w1) _ T).
  pose proof (dispatch_kind cval ctext (w_addr w1) (w_order w1) (w_regex w1) false (w_live w1) (built cval w1 m) (alias (m_query m))) as Kd.
  destruct A as [h t t' Pm|r|n x|e0|].
  - cbn [emit]. change (m_output m0) with (m_output m). change (m_output (with_files m None (Some f))) with (m_output m).
    change (finish cval w2 (with_files m None (Some f))) with (finish cval w2 m). change (finish cval w1 m0) with (finish cval w1 m).
    apply finish_same; [now rewrite Hw|]. destruct (m_output m) as [n|]; [unfold write_file; destruct (str_eqb n dash); constructor; exact Pm|constructor; exact Pm].
  - exfalso. destruct (Kd _ eq_refl) as (K1 & K2). unfold tabular in T. rewrite K1 in T. destruct T as [T|[T1 T2]]; [congruence|]. rewrite T1 in K2.
    destruct K2 as [K2|(Q1 & Q2 & Q3 & Q4 & Q5 & Q6 & Q7 & Q8 & _)]; [congruence|]. rewrite Q1, Q2, Q3, Q4, Q5, Q6, Q7, Q8 in T2. intuition congruence.
  - cbn [emit]. change (finish cval w2 (with_files m None (Some f))) with (finish cval w2 m). change (finish cval w1 m0) with (finish cval w1 m).
    apply finish_same; [now rewrite Hw|]. constructor.
  - unfold fail. constructor. repeat constructor.
  - constructor.
Qed.
End Main2.
