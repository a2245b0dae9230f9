(** C91 to C96: the report tool. *)
From Coq Require Import Ascii String.
From Verif Require Import Base M_Range M_Netlist S_Text M_Text P_Text M_Serial M_Cli M_Tool S_Tool P_Tool P_Tool2.
Notation length := List.length.

(** ** C91. A scope is taken as a pattern exactly when it has a wildcard; without one, matching
    would be equality. *)
Theorem c91_wildcard_test : forall s, hasGlobChar s = true <-> Wild s.
Proof. exact c91. Qed.
Print Assumptions c91_wildcard_test.
Theorem c91_literal_is_equal : forall s p, hasGlobChar s = false -> (wildcardMatch p s = Some true <-> p = s).
Proof.
  intros s p H. rewrite <- (c91_literal s p H). unfold matches. destruct (wildcardMatch p s) as [[]|]; split; congruence.
Qed.
Print Assumptions c91_literal_is_equal.
Example c91_examples : hasGlobChar (lit "t..x") = false /\ hasGlobChar (lit "t...x") = true /\ hasGlobChar (lit "t.?") = true.
Proof. repeat split. Qed.

(** A design: top t with a port, its net, a variable, a parameter and a generate block with a
    variable of its own. *)
Definition tl (k : Z) : option (str * Z * Z) := Some (lit "t.sv", k, 3%Z).
Definition gx : symbol := Symbol 6 (lit "t.g.x") (tl 6) (CVar (lit "logic") 1) SLeaf [].
Definition gs : symbol := Symbol 5 (lit "t.g") (tl 5) COther SScope [gx].
Definition tp : symbol := Symbol 4 (lit "t.p") (tl 4) CValue SLeaf [].
Definition tq : symbol := Symbol 3 (lit "t.q") (tl 3) (CVar (lit "logic[7:0]") 8) SLeaf [].
Definition tn : symbol := Symbol 2 (lit "t.a") (tl 1) (CNet (lit "wire") (lit "logic") 1) SLeaf [].
Definition ta : symbol := Symbol 1 (lit "t.a") (tl 1) (CPort DIn 1 (Some (lit "wire"))) SLeaf [].
Definition tt : symbol := Symbol 0 (lit "t") (tl 0) COther (SInst false) [ta; tn; tq; tp; gs].
Definition troot : symbol := Symbol 7 [] None COther SScope [tt].
Definition tlook (x : str) : option symbol :=
  find (fun s => str_eqb (s_path s) x) [tt; tn; tq; tp; gs; gx].
Definition tdrivers (s : symbol) : list driver :=
  if s_id s =? 3 then [Driver (lit "q[3:0]") true (Range 0 3)%Z (tl 9); Driver (lit "q[4]") false (Range 4 4)%Z None] else [].
Definition trun (o : toptions) : tres := report_main troot tlook tdrivers true o.
Lemma tlook_inside x s : tlook x = Some s -> Inside troot s.
Proof.
  intros H. apply find_some in H. destruct H as [H _]. apply inside_iff. vm_compute in H. vm_compute. tauto.
Qed.
Lemma troot_distinct : Distinct troot.
Proof. exists (all troot). split; [now apply whole_all|]. vm_compute. repeat constructor; cbn; intuition discriminate. Qed.

(** ** C92. The symbols selected by the scope options are the answers to the options, in order,
    each once; with any option at all there is at least one. *)
Theorem c92_selected : forall root lookupName scopes r, resolve root lookupName scopes ([], []) = inl r ->
  exists ls, Forall2 (Answers root lookupName) scopes ls /\ Firsts [] (concat ls) (snd r) /\ (scopes <> [] -> snd r <> []).
Proof. exact c92. Qed.
Print Assumptions c92_selected.
(** The answers are determined by the option. *)
Theorem c92_answers_unique : forall root lookupName x l l', Answers root lookupName x l -> Answers root lookupName x l' -> l = l'.
Proof. exact answers_fun. Qed.
Print Assumptions c92_answers_unique.
Example c92_example : exists seen, resolve troot tlook [lit "t.q"; lit "t.*"; lit "t.g.x"] ([], []) = inl (seen, [tq; ta; tn; tp; gs; gx]).
Proof. eexists. vm_compute. reflexivity. Qed.

(** ** C93. As worded - a scope option is rejected only if nothing answers to it - refuted: the
    matches of the pattern may all be selected already. *)
Theorem c93_rejected_only_if_nothing_refuted : ~ (forall root lookupName scopes m,
  resolve root lookupName scopes ([], []) = inr m ->
  exists x, In x scopes /\ forall l, Answers root lookupName x l -> l = []).
Proof.
  intros H. destruct (H troot tlook [lit "t.q"; lit "t.q*"] (lit "scope 't.q*' matched no symbols")) as (x & I & K); [vm_compute; reflexivity|].
  destruct I as [<-|[<-|[]]].
  - assert (E : [tq] = []); [|discriminate]. apply K. apply answers_name; [reflexivity|]. exists tq. split; [vm_compute; reflexivity|reflexivity].
  - assert (E : [tq] = []); [|discriminate]. apply K. apply answers_found; [reflexivity|]. vm_compute. reflexivity.
Qed.
Print Assumptions c93_rejected_only_if_nothing_refuted.
(** What a rejection does mean: an unknown name, or a pattern all of whose matches answer to
    earlier options. *)
Theorem c93_rejected_exact : forall root lookupName scopes m, resolve root lookupName scopes ([], []) = inr m ->
  exists a x b ls, scopes = a ++ x :: b /\ Forall2 (Answers root lookupName) a ls /\
    ((Wild x /\ m = lit "scope '" ++ x ++ lit "' matched no symbols" /\
      forall l s, Answers root lookupName x l -> In s l -> exists t, In t (concat ls) /\ s_id t = s_id s) \/
     (~ Wild x /\ m = lit "scope '" ++ x ++ lit "' not found" /\ lookupName x = None)).
Proof.
  intros root lookupName scopes m E. destruct (resolve_fail _ _ _ _ _ E) as (a & x & b & ls & H1 & H2 & H3).
  exists a, x, b, ls. split; auto. split; auto. destruct H3 as [(W & M & H3)|H3]; auto. left. split; auto. split; auto.
  intros l s A I. destruct (H3 l s A I) as [[]|K]; auto.
Qed.
Print Assumptions c93_rejected_exact.
(** Options with disjoint answers are rejected only if nothing answers. *)
Theorem c93_rejected_only_if_nothing_partial : forall root lookupName scopes m,
  (forall a x b y la lx s t, scopes = a ++ x :: b -> In y a -> Answers root lookupName y la -> Answers root lookupName x lx ->
     In s lx -> In t la -> s_id t <> s_id s) ->
  resolve root lookupName scopes ([], []) = inr m ->
  exists x, In x scopes /\ forall l, Answers root lookupName x l -> l = [].
Proof.
  intros root lookupName scopes m D E. destruct (c93_rejected_exact _ _ _ _ E) as (a & x & b & ls & -> & F & H).
  exists x. split; [apply in_app_iff; right; now left|]. intros l A. destruct H as [(W & _ & H)|(W & _ & N)].
  - destruct l as [|s l]; auto. exfalso. destruct (H _ s A (or_introl eq_refl)) as (t & It & Et).
    apply in_concat in It. destruct It as (la & Il & It).
    assert (X : exists y, In y a /\ Answers root lookupName y la).
    { clear - F Il. induction F; [destruct Il|]. destruct Il as [<-|Il]; [eexists; split; [now left|eauto]|].
      destruct IHF as (y' & I & K); auto. exists y'. split; auto. now right. }
    destruct X as (y & Iy & Ay). exact (D a x b y la (s :: l) s t eq_refl Iy Ay A (or_introl eq_refl) It Et).
  - destruct A as [all l W' _ _|s _ L]; [contradiction|congruence].
Qed.
Print Assumptions c93_rejected_only_if_nothing_partial.
Example c93_order : (exists r, resolve troot tlook [lit "t.q*"; lit "t.q"] ([], []) = inl r) /\
  resolve troot tlook [lit "t.q"; lit "t.q*"] ([], []) = inr (lit "scope 't.q*' matched no symbols") /\
  resolve troot tlook [lit "t.z"] ([], []) = inr (lit "scope 't.z' not found").
Proof. repeat split; [eexists|..]; vm_compute; reflexivity. Qed.

(** ** C95. The report asked for lists exactly the symbols of its kind in the scopes that pass
    the name filter, in order, as a table ... *)
Lemma scopes_of root lookupName o sel seen : resolve root lookupName (t_scopes o) ([], []) = inl (seen, sel) ->
  Scopes root lookupName o (match sel with [] => [root] | _ => sel end).
Proof.
  intros E. destruct (c92 _ _ _ _ E) as (ls & F & K & N). cbn [snd] in *. destruct (t_scopes o) as [|x xs] eqn:Es.
  - left. split; auto. inversion F; subst. inversion K; subst. reflexivity.
  - right. rewrite Es. split; [discriminate|]. assert (sel <> []) by (apply N; discriminate). destruct sel; [congruence|]. eauto.
Qed.
Lemma asked_emit root lookupName drivers enter o w js : t_ast o = None -> Asked o w -> is_json (t_format o) = Some js ->
  forall seen sel, resolve root lookupName (t_scopes o) ([], []) = inl (seen, sel) ->
  report_main root lookupName drivers enter o = emit root drivers enter w js (t_names o) sel.
Proof.
  intros A K J seen sel E. unfold report_main. rewrite E, A, J.
  destruct K as [b P|b P V|b P V D]; rewrite ?P, ?V, ?D; reflexivity.
Qed.
Theorem c95_table : forall root lookupName drivers enter o w, t_ast o = None -> Asked o w -> AsTable o ->
  (exists m, resolve root lookupName (t_scopes o) ([], []) = inr m /\ report_main root lookupName drivers enter o = TFail m) \/
  (exists roots l rss, Scopes root lookupName o roots /\ Listed enter w (t_names o) roots l /\ Forall2 (ItemRows drivers w) l rss /\
     report_main root lookupName drivers enter o = TTable (heading w) (concat rss)).
Proof.
  intros root lookupName drivers enter o w A K T. destruct (resolve root lookupName (t_scopes o) ([], [])) as [[seen sel]|m] eqn:E.
  - right. assert (J : is_json (t_format o) = Some false) by (destruct T as [-> | ->]; reflexivity).
    rewrite (asked_emit _ _ drivers enter o w false A K J _ _ E). unfold emit.
    set (roots := match sel with [] => [root] | _ => sel end).
    destruct (rows_all drivers w _ (items_wanted enter w (t_names o) roots)) as (rss & R1 & R2 & _).
    exists roots, (items enter w (t_names o) roots), rss. split; [eapply scopes_of; eauto|]. split; [apply items_listed|]. split; auto.
    rewrite R2. f_equal. destruct w; reflexivity.
  - left. exists m. split; auto. unfold report_main. now rewrite E.
Qed.
Print Assumptions c95_table.
(** ... or as JSON, one element per symbol, from which its rows can be computed. *)
Theorem c95_json : forall root lookupName drivers enter o w, t_ast o = None -> Asked o w -> AsJson o ->
  (exists m, resolve root lookupName (t_scopes o) ([], []) = inr m /\ report_main root lookupName drivers enter o = TFail m) \/
  (exists roots l rss js, Scopes root lookupName o roots /\ Listed enter w (t_names o) roots l /\ Forall2 (ItemRows drivers w) l rss /\
     report_main root lookupName drivers enter o = TJson (JArr js) /\ Forall2 (fun j rs => json_rows w j = rs) js rss).
Proof.
  intros root lookupName drivers enter o w A K T. destruct (resolve root lookupName (t_scopes o) ([], [])) as [[seen sel]|m] eqn:E.
  - right. assert (J : is_json (t_format o) = Some true) by (rewrite T; reflexivity).
    rewrite (asked_emit _ _ drivers enter o w true A K J _ _ E). unfold emit.
    set (roots := match sel with [] => [root] | _ => sel end).
    destruct (rows_all drivers w _ (items_wanted enter w (t_names o) roots)) as (rss & R1 & _ & R3).
    exists roots, (items enter w (t_names o) roots), rss, (map (item_json drivers w) (items enter w (t_names o) roots)).
    split; [eapply scopes_of; eauto|]. split; [apply items_listed|]. auto.
  - left. exists m. split; auto. unfold report_main. now rewrite E.
Qed.
Print Assumptions c95_json.
(** The AST dump takes the same scopes and precedes every report; without it an unknown format
    or the absence of a report is an error. *)
Theorem c95_ast : forall root lookupName drivers enter o f, t_ast o = Some f ->
  (exists m, resolve root lookupName (t_scopes o) ([], []) = inr m /\ report_main root lookupName drivers enter o = TFail m) \/
  (exists roots, Scopes root lookupName o roots /\ report_main root lookupName drivers enter o = TAst f roots).
Proof.
  intros root lookupName drivers enter o f A. unfold report_main. destruct (resolve root lookupName (t_scopes o) ([], [])) as [[seen sel]|m] eqn:E.
  - right. rewrite A. exists (match sel with [] => [root] | _ => sel end). split; auto. eapply scopes_of; eauto.
  - left. eauto.
Qed.
Print Assumptions c95_ast.
Theorem c95_no_report : forall root lookupName drivers enter o, t_ast o = None ->
  (forall w, ~ Asked o w) \/ ~ (AsTable o \/ AsJson o) -> exists m, report_main root lookupName drivers enter o = TFail m.
Proof.
  intros root lookupName drivers enter o A H. unfold report_main. destruct (resolve root lookupName (t_scopes o) ([], [])) as [[seen sel]|m]; eauto.
  rewrite A. unfold is_json. destruct (t_format o) as [x|] eqn:F.
  - destruct (str_eqb x (lit "json")) eqn:J; [|destruct (str_eqb x (lit "table")) eqn:T; [|eauto]]; destruct H as [H|H].
    + destruct (t_ports o) eqn:P; [destruct (H Ports); econstructor; eauto|]. destruct (t_variables o) eqn:V; [destruct (H Variables); econstructor; eauto|].
      destruct (t_drivers o) eqn:D; [destruct (H Drivers); econstructor; eauto|]. cbn. eauto.
    + destruct H. right. apply str_eqb_eq in J. unfold AsJson. congruence.
    + destruct (t_ports o) eqn:P; [destruct (H Ports); econstructor; eauto|]. destruct (t_variables o) eqn:V; [destruct (H Variables); econstructor; eauto|].
      destruct (t_drivers o) eqn:D; [destruct (H Drivers); econstructor; eauto|]. cbn. eauto.
    + destruct H. left. apply str_eqb_eq in T. right. congruence.
  - destruct H as [H|H]; [|destruct H; left; left; exact F].
    destruct (t_ports o) eqn:P; [destruct (H Ports); econstructor; eauto|]. destruct (t_variables o) eqn:V; [destruct (H Variables); econstructor; eauto|].
    destruct (t_drivers o) eqn:D; [destruct (H Drivers); econstructor; eauto|]. cbn. eauto.
Qed.
Print Assumptions c95_no_report.
(** The list is determined by scopes and filter. *)
Theorem c95_listed_unique : forall enter w names roots l l', Listed enter w names roots l -> Listed enter w names roots l' -> l = l'.
Proof. intros enter w names roots l l' A B. apply listed_items in A. apply listed_items in B. congruence. Qed.
Print Assumptions c95_listed_unique.
Example c95_ports : trun (TOpts (Some true) None None None None [] []) =
  TTable (heading Ports) [[lit "In"; lit "t.a"; lit "1"; lit "wire"; lit "t.sv:1:3"]].
Proof. vm_compute. reflexivity. Qed.
Example c95_variables : trun (TOpts None (Some true) None None None [lit "t"] [lit "t.*"]) =
  TTable (heading Variables) [[lit "t.a"; lit "logic"; lit "1"; lit "wire"; lit "0"; lit "t.sv:1:3"];
                              [lit "t.q"; lit "logic[7:0]"; lit "8"; lit "var"; lit "2"; lit "t.sv:3:3"]].
Proof. vm_compute. reflexivity. Qed.
Example c95_drivers : trun (TOpts None None (Some true) None (Some (lit "json")) [lit "t.q"] []) =
  TJson (JArr [JObj [(lit "value", JStr (lit "t.q")); (lit "location", JStr (lit "t.sv:3:3"));
    (lit "drivers", JArr [
       JObj [(lit "range", JStr (lit "[3:0]")); (lit "driver", JStr (lit "q[3:0]")); (lit "kind", JStr (lit "proc")); (lit "location", JStr (lit "t.sv:9:3"))];
       JObj [(lit "range", JStr (lit "[4]")); (lit "driver", JStr (lit "q[4]")); (lit "kind", JStr (lit "cont")); (lit "location", JStr (lit "?"))]])]]).
Proof. vm_compute. reflexivity. Qed.
Example c95_format : trun (TOpts (Some true) None None None (Some (lit "xml")) [] []) =
  TFail (lit "unknown --format value 'xml'; expected 'table' or 'json'").
Proof. vm_compute. reflexivity. Qed.

(** ** C94. As worded - a report lists each symbol once - refuted by nested scopes. *)
Theorem c94_once_refuted : ~ (forall root lookupName drivers enter o w h t, Distinct root ->
  (forall x s, lookupName x = Some s -> Inside root s) -> Asked o w -> w <> Drivers ->
  report_main root lookupName drivers enter o = TTable h t -> NoDup t).
Proof.
  intros H. specialize (H troot tlook tdrivers true (TOpts None (Some true) None None None [lit "t"; lit "t.q"] [lit "t.q"]) Variables).
  remember (trun (TOpts None (Some true) None None None [lit "t"; lit "t.q"] [lit "t.q"])) as r eqn:E. vm_compute in E.
  match type of E with _ = TTable ?h ?t => specialize (H h t troot_distinct tlook_inside) end.
  assert (N := H ltac:(apply (As_vars _ true); reflexivity) ltac:(discriminate) ltac:(vm_compute; reflexivity)).
  inversion N as [|? ? N1 _]. apply N1. now left.
Qed.
Print Assumptions c94_once_refuted.
(** A symbol is listed once for each selected scope from which it is reached. *)
Theorem c94_times : forall root lookupName enter o w roots l s, Distinct root ->
  (forall x s, lookupName x = Some s -> Inside root s) ->
  Scopes root lookupName o roots -> Listed enter w (t_names o) roots l -> In s l ->
  exists rs, Kept (fun r => exists p, Pre (Entered enter w) r p /\ In s p) roots rs /\
    count_occ Nat.eq_dec (map s_id l) (s_id s) = length rs.
Proof.
  intros root lookupName enter o w roots l s (q & W & D) L S K I. apply whole_all in W. subst q.
  assert (R : forall r, In r roots -> Inside root r).
  { destruct S as [[_ ->]|(_ & _ & ls & F & Fs)]; [intros r [<-|[]]; constructor|]. eapply selected_inside; eauto. }
  apply listed_items in K. subst l. rewrite items_eq in *. apply filter_In in I. destruct I as [I Fs].
  assert (Hs : Inside root s).
  { apply in_flat_map in I. destruct I as (r & Ir & I). eapply inside_trans; [apply R; exact Ir|].
    apply inside_iff. eapply sub_in; [apply pre_sub|exact I]. }
  exists (filter (fun r => existsb (fun x => s_id x =? s_id s) (pre (walks enter w) r)) roots). split.
  - assert (G : forall rs, (forall r, In r rs -> Inside root r) ->
      Kept (fun r => exists p, Pre (Entered enter w) r p /\ In s p) rs
           (filter (fun r => existsb (fun x => s_id x =? s_id s) (pre (walks enter w) r)) rs)); [|now apply G].
    intros rs. induction rs as [|r rs IH]; intros Q; cbn [filter]; [constructor|].
    assert (Q1 := seen_iff root D (walks enter w) r s (Q r (or_introl eq_refl)) Hs).
    destruct (existsb _ _).
    + apply Kept_in; [|apply IH; intros; apply Q; now right]. exists (pre (walks enter w) r). split; [apply pre_ok, walks_iff|]. now apply Q1.
    + apply Kept_out; [|apply IH; intros; apply Q; now right]. intros (p & P & Ip).
      apply (pre_det _ _ (walks_iff enter w)) in P. subst p. apply Q1 in Ip. discriminate.
  - now apply (count_all root D).
Qed.
Print Assumptions c94_times.
(** Once, when no selected scope lies inside another. *)
Theorem c94_once_partial : forall root lookupName enter o w roots l, Distinct root ->
  (forall x s, lookupName x = Some s -> Inside root s) ->
  Scopes root lookupName o roots -> (forall a b, In a roots -> In b roots -> Inside a b -> a = b) ->
  Listed enter w (t_names o) roots l -> NoDup (map s_id l).
Proof.
  intros root lookupName enter o w roots l (q & W & D) L S A K. apply whole_all in W. subst q.
  assert (R : NoDup (map s_id roots) /\ forall r, In r roots -> Inside root r).
  { destruct S as [[_ ->]|(_ & _ & ls & F & Fs)].
    - split; [repeat constructor; auto|]. intros r [<-|[]]; constructor.
    - eapply selected_inside; eauto. }
  apply listed_items in K. subst l. rewrite items_eq. apply (once root D); tauto.
Qed.
Print Assumptions c94_once_partial.
Example c94_nested : trun (TOpts None (Some true) None None None [lit "t..."] [lit "t.g.x"]) =
  TTable (heading Variables) (repeat [lit "t.g.x"; lit "logic"; lit "1"; lit "var"; lit "0"; lit "t.sv:6:3"] 3).
Proof. vm_compute. reflexivity. Qed.

(** ** C96. The table of a report can be computed from its JSON form. *)
Definition with_format (o : toptions) (f : option str) : toptions :=
  TOpts (t_ports o) (t_variables o) (t_drivers o) (t_ast o) f (t_scopes o) (t_names o).
Theorem c96_same_data : forall root lookupName drivers enter o w js, t_ast o = None -> Asked o w ->
  report_main root lookupName drivers enter (with_format o (Some (lit "json"))) = TJson (JArr js) ->
  report_main root lookupName drivers enter (with_format o None) = TTable (heading w) (flat_map (json_rows w) js).
Proof.
  intros root lookupName drivers enter o w js A K E.
  assert (K' : forall f, Asked (with_format o f) w).
  { intros f. destruct K as [b P|b P V|b P V Q]; [eapply As_ports|eapply As_vars|eapply As_drivers]; cbn; eauto. }
  destruct (resolve root lookupName (t_scopes o) ([], [])) as [[seen sel]|m] eqn:R.
  - rewrite (asked_emit root lookupName drivers enter (with_format o (Some (lit "json"))) w true A (K' _) eq_refl seen sel R) in E.
    rewrite (asked_emit root lookupName drivers enter (with_format o None) w false A (K' _) eq_refl seen sel R).
    unfold emit in *. set (roots := match sel with [] => [root] | _ => sel end) in *. injection E as <-.
    replace (header w) with (heading w) by (destruct w; reflexivity). f_equal.
    assert (W := items_wanted enter w (t_names o) roots). change (t_names (with_format o (Some (lit "json")))) with (t_names o).
    change (t_names (with_format o None)) with (t_names o).
    induction (items enter w (t_names o) roots) as [|s l IH]; [reflexivity|]. inversion W; subst. cbn [map flat_map].
    rewrite item_json_rows by auto. f_equal. now apply IH.
  - unfold report_main in E. cbn [with_format t_scopes] in E. rewrite R in E. discriminate.
Qed.
Print Assumptions c96_same_data.
Example c96_example : flat_map (json_rows Drivers) (match trun (TOpts None None (Some true) None (Some (lit "json")) [lit "t.q"] []) with TJson (JArr js) => js | _ => [] end) =
  [[lit "t.q"; []; []; []; lit "t.sv:3:3"];
   [arrow; lit "[3:0]"; lit "q[3:0]"; lit "proc"; lit "t.sv:9:3"]; [arrow; lit "[4]"; lit "q[4]"; lit "cont"; lit "?"]].
Proof. vm_compute. reflexivity. Qed.
